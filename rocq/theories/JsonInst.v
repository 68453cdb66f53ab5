(** * An instance of [float_io] meeting [float_io_ok].

    CPython prints the shortest decimal text that reads back as the same float.
    The theorems only need some text of JSON's float grammar that reads back;
    this instance (binary mantissa and exponent, in decimal) shows that the
    assumption can be met.  It is not CPython's text. *)
From Coq Require Import NArith ZArith String Decimal DecimalString SpecFloat.
From Verif Require Import Base Num Pattern Json PatJson Spec SpecJson JsonFacts.
Local Open Scope list_scope.
Local Open Scope N_scope.

Definition sgn (s : bool) : pystr := if s then [45] else [].
Definition demo_repr (f : spec_float) : pystr :=
  match f with
  | S754_zero s => sgn s ++ [48; 101; 48]
  | S754_finite s m e => sgn s ++ uint_text (Pos.to_uint m) ++ 101 :: int_text e
  | _ => []
  end.
Definition text_int (t : pystr) : Z :=
  match t with
  | 45 :: d => Z.of_int (Neg (text_uint d))
  | d => Z.of_int (Pos (text_uint d))
  end.
Definition demo_read (t : pystr) : spec_float :=
  let s := match t with 45 :: _ => true | _ => false end in
  let (ip, r) := span_digits (skipn (length (sgn s)) t) in
  match N.of_uint (text_uint ip) with
  | N0 => S754_zero s
  | Npos m => S754_finite s m (text_int (tl r))
  end.
Definition demo_io : float_io := mkFloatIo demo_repr demo_read.

Lemma text_int_back : forall z, text_int (int_text z) = z.
Proof.
  intros z. unfold int_text. pose proof (DecimalZ.of_to z) as Hz.
  destruct (Z.to_int z) as [d|d] eqn:E.
  - transitivity (Z.of_int (Pos (text_uint (uint_text d)))).
    + destruct d; reflexivity.
    + rewrite text_uint_text. exact Hz.
  - cbn [text_int]. rewrite text_uint_text. exact Hz.
Qed.
Lemma int_text_parts : forall z, exists sg d, int_text z = sg ++ d /\ (sg = [] \/ sg = [45]) /\ numeral d.
Proof.
  intros z. unfold int_text. destruct z as [|p|p]; cbn [Z.to_int].
  - exists [], [48]. split; auto. split; auto. repeat split; try discriminate. repeat constructor; lia.
  - exists [], (uint_text (Pos.to_uint p)). split; auto. split; auto. apply unorm_numeral, to_uint_norm.
  - exists [45], (uint_text (Pos.to_uint p)). split; auto. split; auto. apply unorm_numeral, to_uint_norm.
Qed.
Lemma of_to_pos : forall m, N.of_uint (Pos.to_uint m) = Npos m.
Proof. intros. unfold N.of_uint. apply DecimalPos.Unsigned.of_to. Qed.

Theorem demo_io_ok : float_io_ok demo_io.
Proof.
  intros f [_ Hf]. destruct f as [s|s| |s m e]; try contradiction; cbn [demo_io f_repr f_read].
  - split.
    + exists (sgn s), [48], [], [101; 48]. split; [destruct s; reflexivity|].
      split; [destruct s; auto|]. split; [repeat split; try discriminate; repeat constructor; lia|].
      split; auto. split; [|right; discriminate]. right. exists 101, [], [48].
      repeat split; auto; try discriminate. repeat constructor; lia.
    + destruct s; reflexivity.
  - pose proof (unorm_numeral _ (to_uint_norm m)) as Hm.
    destruct (int_text_parts e) as (sg & d & Ee & Hsg & Hd).
    split.
    + exists (sgn s), (uint_text (Pos.to_uint m)), [], (101 :: int_text e). split; [reflexivity|].
      split; [destruct s; cbn; auto|]. split; auto. split; auto. split; [|right; discriminate].
      right. exists 101, sg, d. split; auto. split; [tauto|]. destruct Hd as (H1 & H2 & _).
      repeat split; auto. rewrite Ee. auto.
    + unfold demo_read, demo_repr.
      assert (E: (match sgn s ++ uint_text (Pos.to_uint m) ++ 101 :: int_text e with 45 :: _ => true | _ => false end) = s).
      { destruct s; auto. cbn [sgn app]. destruct Hm as (H1 & H2 & _).
        destruct (uint_text (Pos.to_uint m)) as [|c r]; [congruence|]. inversion H1; subst. cbn [app].
        assert (c <> 45) by lia. destruct c as [|p]; auto.
        repeat (destruct p as [p|p|]; try reflexivity; try congruence). }
      rewrite E.
      replace (skipn (length (sgn s)) (sgn s ++ uint_text (Pos.to_uint m) ++ 101 :: int_text e))
        with (uint_text (Pos.to_uint m) ++ 101 :: int_text e) by (destruct s; reflexivity).
      rewrite span_digits_app; [|apply Hm|reflexivity].
      rewrite text_uint_text, of_to_pos. cbn [tl]. rewrite text_int_back. reflexivity.
Qed.
