(** * Python's json module on the objects the patterns exchange.

    Models [json.dumps] (default arguments: [ensure_ascii], separators [', ']
    and [': '], [allow_nan]) and [json.loads] of CPython 3 (json/encoder.py,
    json/scanner.py, json/decoder.py), which paragami/base_patterns.py:370,395
    and pattern_containers.py:64,371,632 call.

    Texts are lists of code points.  The text of a finite float
    ([float.__repr__] / [float()]) is a parameter [float_io]; theorems assume
    [float_io_ok] of it (Spec: SpecJson.v) and an instance is exhibited.
    Not modelled: recursion limits, the integer digit limit. *)
From Coq Require Import Reals NArith Ascii String Decimal DecimalString SpecFloat.
From Verif Require Import Base Num Pattern.
Local Open Scope list_scope.
Local Open Scope N_scope.

(** The Python values that occur: [tuple]s and [list]s are both [OSeq]. *)
Inductive pyobj : Type :=
| ONone
| OBool (b : bool)
| ONum (x : pynum)
| OStr (s : pystr)
| OSeq (l : list pyobj)
| ODict (d : list (key * pyobj)).

(** [float.__repr__] and [float()] on finite floats and their texts. *)
Record float_io : Type := mkFloatIo { f_repr : spec_float -> pystr; f_read : pystr -> spec_float }.

(** ** Decimal integers ([int.__repr__] and [int()]) *)

Fixpoint uint_text (d : uint) : pystr :=
  match d with
  | Nil => []
  | D0 d => 48 :: uint_text d | D1 d => 49 :: uint_text d | D2 d => 50 :: uint_text d
  | D3 d => 51 :: uint_text d | D4 d => 52 :: uint_text d | D5 d => 53 :: uint_text d
  | D6 d => 54 :: uint_text d | D7 d => 55 :: uint_text d | D8 d => 56 :: uint_text d
  | D9 d => 57 :: uint_text d
  end.
Definition int_text (z : Z) : pystr :=
  match Z.to_int z with Pos d => uint_text d | Neg d => 45 :: uint_text d end.

Fixpoint text_uint (s : pystr) : uint :=
  match s with
  | [] => Nil
  | c :: r =>
      let d := text_uint r in
      if c =? 48 then D0 d else if c =? 49 then D1 d else if c =? 50 then D2 d
      else if c =? 51 then D3 d else if c =? 52 then D4 d else if c =? 53 then D5 d
      else if c =? 54 then D6 d else if c =? 55 then D7 d else if c =? 56 then D8 d
      else D9 d
  end.

(** ** Writing *)

(** Four lower-case hexadecimal digits. *)
Definition hexdig (n : N) : N := if n <? 10 then 48 + n else 87 + n.
Definition hex4 (n : N) : pystr :=
  [hexdig (n / 4096 mod 16); hexdig (n / 256 mod 16); hexdig (n / 16 mod 16); hexdig (n mod 16)].

(** json/encoder.py:36-63 [py_encode_basestring_ascii]: one code point. *)
Definition esc_char (c : N) : pystr :=
  if c =? 34 then [92; 34]
  else if c =? 92 then [92; 92]
  else if c =? 10 then [92; 110]
  else if c =? 13 then [92; 114]
  else if c =? 9 then [92; 116]
  else if c =? 12 then [92; 102]
  else if c =? 8 then [92; 98]
  else if (32 <=? c) && (c <=? 126) then [c]
  else if c <? 65536 then 92 :: 117 :: hex4 c
  else
    let n := c - 65536 in
    92 :: 117 :: hex4 (55296 + n / 1024) ++ 92 :: 117 :: hex4 (56320 + n mod 1024).
Definition quote (s : pystr) : pystr := 34 :: flat_map esc_char s ++ [34].

(** json/encoder.py:224-257 [floatstr], and integers. *)
Definition num_text (io : float_io) (x : pynum) : pystr :=
  match x with
  | PyInt z => int_text z
  | PyFloat S754_nan => str "NaN"
  | PyFloat (S754_infinity s) => if s then str "-Infinity" else str "Infinity"
  | PyFloat f => f_repr io f
  end.

(** json/encoder.py:335-353: integer keys are converted to strings. *)
Definition key_text (k : key) : pystr :=
  match k with KStr s => s | KInt z => int_text z end.

(** [sep.join(l)]. *)
Fixpoint join (sep : pystr) (l : list pystr) : pystr :=
  match l with
  | [] => []
  | [x] => x
  | x :: r => x ++ sep ++ join sep r
  end.

(** [json.dumps(o)]. *)
Fixpoint dumps (io : float_io) (o : pyobj) : pystr :=
  match o with
  | ONone => str "null"
  | OBool b => if b then str "true" else str "false"
  | ONum x => num_text io x
  | OStr s => quote s
  | OSeq l => 91 :: join (str ", ") (map (dumps io) l) ++ [93]
  | ODict d =>
      123 :: join (str ", ")
        (map (fun kv => quote (key_text (fst kv)) ++ str ": " ++ dumps io (snd kv)) d) ++ [125]
  end.

(** ** Reading *)

Definition is_ws (c : N) : bool := (c =? 32) || (c =? 9) || (c =? 10) || (c =? 13).
Fixpoint skip_ws (s : pystr) : pystr :=
  match s with [] => [] | c :: r => if is_ws c then skip_ws r else s end.

Definition is_digit (c : N) : bool := (48 <=? c) && (c <=? 57).
Definition hexval (c : N) : option N :=
  if is_digit c then Some (c - 48)
  else if (97 <=? c) && (c <=? 102) then Some (c - 87)
  else if (65 <=? c) && (c <=? 70) then Some (c - 55)
  else None.
Definition hex4val (a b c d : N) : option N :=
  match hexval a, hexval b, hexval c, hexval d with
  | Some a, Some b, Some c, Some d => Some (a * 4096 + b * 256 + c * 16 + d)
  | _, _, _, _ => None
  end.
Definition is_high (u : N) : bool := (55296 <=? u) && (u <=? 56319).
Definition is_low (u : N) : bool := (56320 <=? u) && (u <=? 57343).

(** json/decoder.py:59-69 (the one-character escapes). *)
Definition short_esc (c : N) : option N :=
  if c =? 34 then Some 34 else if c =? 92 then Some 92 else if c =? 47 then Some 47
  else if c =? 98 then Some 8 else if c =? 102 then Some 12 else if c =? 110 then Some 10
  else if c =? 114 then Some 13 else if c =? 116 then Some 9 else None.

Definition push (c : N) (x : option (pystr * pystr)) : option (pystr * pystr) :=
  match x with Some (s, r) => Some (c :: s, r) | None => None end.

(** json/decoder.py:71-127 [py_scanstring] (strict), after the opening quote:
    the decoded string and the rest of the text. *)
Fixpoint scan_str (s : pystr) : option (pystr * pystr) :=
  match s with
  | [] => None
  | c :: r =>
      if c =? 34 then Some ([], r)
      else if c =? 92 then
        match r with
        | [] => None
        | e :: r1 =>
            if e =? 117 then
              match r1 with
              | h1 :: h2 :: h3 :: h4 :: r2 =>
                  match hex4val h1 h2 h3 h4 with
                  | None => None
                  | Some u =>
                      if is_high u then
                        match r2 with
                        | x :: y :: r3 =>
                            if (x =? 92) && (y =? 117) then
                              match r3 with
                              | k1 :: k2 :: k3 :: k4 :: r4 =>
                                  match hex4val k1 k2 k3 k4 with
                                  | None => None
                                  | Some u2 =>
                                      if is_low u2
                                      then push (65536 + ((u - 55296) * 1024 + (u2 - 56320)))
                                                (scan_str r4)
                                      else push u (scan_str r2)
                                  end
                              | _ => None
                              end
                            else push u (scan_str r2)
                        | _ => push u (scan_str r2)
                        end
                      else push u (scan_str r2)
                  end
              | _ => None
              end
            else match short_esc e with Some x => push x (scan_str r1) | None => None end
        end
      else if c <? 32 then None
      else push c (scan_str r)
  end.

(** json/scanner.py:14-16,47-55: [(-?(?:0|[1-9]\d* ))(\.\d+)?([eE][-+]?\d+)?]. *)
Fixpoint span_digits (s : pystr) : pystr * pystr :=
  match s with
  | [] => ([], [])
  | c :: r => if is_digit c then let (d, t) := span_digits r in (c :: d, t) else ([], s)
  end.
Definition scan_frac (s : pystr) : pystr * pystr :=
  match s with
  | c :: r =>
      if c =? 46 then
        match span_digits r with ([], _) => ([], s) | (d, t) => (46 :: d, t) end
      else ([], s)
  | [] => ([], s)
  end.
Definition scan_exp (s : pystr) : pystr * pystr :=
  match s with
  | c :: r =>
      if (c =? 101) || (c =? 69) then
        let sg := match r with x :: _ => if (x =? 43) || (x =? 45) then [x] else [] | [] => [] end in
        match span_digits (skipn (length sg) r) with
        | ([], _) => ([], s)
        | (d, t) => (c :: sg ++ d, t)
        end
      else ([], s)
  | [] => ([], s)
  end.
Definition scan_int (s : pystr) : option (pystr * pystr) :=
  match s with
  | [] => None
  | c :: r =>
      if c =? 48 then Some ([48], r)
      else if is_digit c then Some (span_digits s)
      else None
  end.
Definition scan_num (io : float_io) (s : pystr) : option (pynum * pystr) :=
  let sg := match s with c :: _ => if c =? 45 then [45] else [] | [] => [] end in
  match scan_int (skipn (length sg) s) with
  | None => None
  | Some (ip, r1) =>
      let (fp, r2) := scan_frac r1 in
      let (ep, r3) := scan_exp r2 in
      match fp, ep with
      | [], [] =>
          let d := text_uint ip in
          Some (PyInt (Z.of_int (match sg with [] => Pos d | _ => Neg d end)), r3)
      | _, _ => Some (PyFloat (f_read io (sg ++ ip ++ fp ++ ep)), r3)
      end
  end.

(** The rest of [s] after the prefix [p]. *)
Fixpoint strip (p s : pystr) : option pystr :=
  match p, s with
  | [], _ => Some s
  | a :: p', c :: s' => if a =? c then strip p' s' else None
  | _ :: _, [] => None
  end.

(** json/scanner.py:28-61: everything but strings, arrays and objects. *)
Definition scan_atom (io : float_io) (s : pystr) : option (pyobj * pystr) :=
  match strip (str "null") s with Some r => Some (ONone, r) | None =>
  match strip (str "true") s with Some r => Some (OBool true, r) | None =>
  match strip (str "false") s with Some r => Some (OBool false, r) | None =>
  match scan_num io s with Some (x, r) => Some (ONum x, r) | None =>
  match strip (str "NaN") s with Some r => Some (ONum (PyFloat S754_nan), r) | None =>
  match strip (str "Infinity") s with Some r => Some (ONum py_inf, r) | None =>
  match strip (str "-Infinity") s with Some r => Some (ONum py_ninf, r) | None => None
  end end end end end end end.

(** json/scanner.py:28-61 [_scan_once], json/decoder.py:136-252 [JSONObject] and
    [JSONArray].  Objects come out as their list of pairs.  [n] bounds the
    recursion; [loads] gives the length of the text, which is always enough. *)
Fixpoint scan (io : float_io) (n : nat) (s : pystr) : option (pyobj * pystr) :=
  match n with
  | O => None
  | S n =>
      match s with
      | [] => None
      | c :: r =>
          if c =? 34 then
            match scan_str r with Some (t, r') => Some (OStr t, r') | None => None end
          else if c =? 91 then
            match skip_ws r with
            | [] => None
            | c' :: r' =>
                if c' =? 93 then Some (OSeq [], r')
                else match scan_elems io n (c' :: r') with
                     | Some (l, r'') => Some (OSeq l, r'')
                     | None => None
                     end
            end
          else if c =? 123 then
            match skip_ws r with
            | [] => None
            | c' :: r' =>
                if c' =? 125 then Some (ODict [], r')
                else match scan_pairs io n (c' :: r') with
                     | Some (l, r'') => Some (ODict l, r'')
                     | None => None
                     end
            end
          else scan_atom io s
      end
  end
with scan_elems (io : float_io) (n : nat) (s : pystr) : option (list pyobj * pystr) :=
  match n with
  | O => None
  | S n =>
      match scan io n s with
      | None => None
      | Some (x, r) =>
          match skip_ws r with
          | [] => None
          | c :: r' =>
              if c =? 93 then Some ([x], r')
              else if c =? 44 then
                match scan_elems io n (skip_ws r') with
                | Some (l, r'') => Some (x :: l, r'')
                | None => None
                end
              else None
          end
      end
  end
with scan_pairs (io : float_io) (n : nat) (s : pystr) : option (list (key * pyobj) * pystr) :=
  match n with
  | O => None
  | S n =>
      match s with
      | [] => None
      | q :: s' =>
          if negb (q =? 34) then None
          else match scan_str s' with
          | None => None
          | Some (k, r) =>
              match skip_ws r with
              | [] => None
              | c :: r' =>
                  if negb (c =? 58) then None
                  else match scan io n (skip_ws r') with
                  | None => None
                  | Some (x, r1) =>
                      match skip_ws r1 with
                      | [] => None
                      | c' :: r2 =>
                          if c' =? 125 then Some ([(KStr k, x)], r2)
                          else if c' =? 44 then
                            match scan_pairs io n (skip_ws r2) with
                            | Some (l, r3) => Some ((KStr k, x) :: l, r3)
                            | None => None
                            end
                          else None
                      end
                  end
              end
          end
      end
  end.

(** json/decoder.py:332-356 [decode]: surrounding white space only. *)
Definition parse (io : float_io) (s : pystr) : option pyobj :=
  match scan io (S (length s)) (skip_ws s) with
  | Some (o, r) => match skip_ws r with [] => Some o | _ => None end
  | None => None
  end.

(** Pairs to dictionaries: [dict(pairs)], at every level. *)
Fixpoint to_dicts (o : pyobj) : pyobj :=
  match o with
  | OSeq l => OSeq (map to_dicts l)
  | ODict d =>
      ODict (fold_left (fun acc kv => assign acc (fst kv) (snd kv))
               (map (fun kv => (fst kv, to_dicts (snd kv))) d) [])
  | _ => o
  end.

(** [json.loads(s)]: JSONDecodeError is a ValueError. *)
Definition loads (io : float_io) (s : pystr) : res pyobj :=
  match parse io s with Some o => Ok (to_dicts o) | None => Err ValueError end.

(** ** Python's [==] on these values

    Numbers compare by value, dictionaries regardless of order.  (Identity
    short-cuts matter for NaN only; a NaN is here unequal to itself.) *)
Definition num_eqb (x y : pynum) : bool := neqb (pyval x) (pyval y).
Definition str_eqb (s t : pystr) : bool := if list_eq_dec N.eq_dec s t then true else false.
Definition bool_num (b : bool) : pynum := PyInt (if b then 1 else 0).
Fixpoint obj_eqb (a b : pyobj) {struct a} : bool :=
  match a, b with
  | ONone, ONone => true
  | OBool x, OBool y => Bool.eqb x y
  | OBool x, ONum y => num_eqb (bool_num x) y
  | ONum x, OBool y => num_eqb x (bool_num y)
  | ONum x, ONum y => num_eqb x y
  | OStr x, OStr y => str_eqb x y
  | OSeq l, OSeq m =>
      (fix go l m := match l, m with
                     | [], [] => true
                     | x :: l', y :: m' => obj_eqb x y && go l' m'
                     | _, _ => false
                     end) l m
  | ODict d, ODict e =>
      Nat.eqb (length d) (length e) &&
      (fix go d := match d with
                   | [] => true
                   | (k, x) :: d' =>
                       match dict_get e k with Some y => obj_eqb x y | None => false end && go d'
                   end) d
  | _, _ => false
  end.
