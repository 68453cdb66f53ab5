(** * [grouped_sum] on arrays of 64-bit floating point numbers. *)
From Coq Require Import ZArith List Arith.
From Verif Require Import Base Nd Flt AdSupp.
Import ListNotations.
Local Open Scope nat_scope.

(** autograd_supplement_lib.py:220-223: [result[g, ...] += row] on the list of rows, one
    rounded addition per entry, in the order of the observations. *)
Definition add_row64 (acc : list (list f64)) (g : Z) (row : list f64) : res (list (list f64)) :=
  i <- py_row (length acc) g ;; Ok (upd acc i (map2 fadd (nth i acc []) row)).
Fixpoint add_rows64 (acc : list (list f64)) (l : list (Z * list f64)) : res (list (list f64)) :=
  match l with
  | [] => Ok acc
  | (g, row) :: l' => acc' <- add_row64 acc g row ;; add_rows64 acc' l'
  end.

(** autograd_supplement_lib.py:183-225 with [x] a float64 array.  Simplification: the labels
    are integers and [num_groups] is an integer or None. *)
Definition grouped_sum64 (x : nd f64) (z0 : nd Z) (num_groups : option Z) : res (nd f64) :=
  let x := atleast_1d x in
  let z := atleast_1d z0 in
  if 1 <? ndim z then Err ValueError
  else if negb (nth 0 (shp x) 0 =? nth 0 (shp z) 0) then Err ValueError
  else
    match dat z with
    | [] => Err ValueError
    | a :: r =>
        let max_group := fold_left Z.max r a in
        k <- match num_groups with
             | None => Ok (max_group + 1)%Z
             | Some k => if (k <=? max_group)%Z then Err ValueError else Ok k
             end ;;
        if (k <? 0)%Z then Err ValueError
        else
          let rest := tl (shp x) in
          let n_obs := nth 0 (shp z) 0 in
          rows <- add_rows64 (repeat (repeat fzero (prod rest)) (Z.to_nat k))
                    (combine (dat z) (chunks (prod rest) n_obs (dat x))) ;;
          Ok (mkNd (Z.to_nat k :: rest) (concat rows))
    end.
