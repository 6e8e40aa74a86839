(** Facts about upcasts. *)

From Coq Require Import List NArith ZArith Reals Lia Lra Bool Arith.
From Coq Require Import ZifyBool ZifyNat ZifyN.
From Flocq Require Import Core BinarySingleNaN.
From Verif Require Import Base Num Spec Laws Terms Dense DenseFacts Sparse Mono Bino Trino Numerics Floats FloatFacts Upcast.
Import ListNotations.
Local Open Scope Z_scope.

(** The mathematical value of a number: a real, an infinity, or not a number. *)
Inductive rv := RFin (x : R) | RInf (neg : bool) | RNaN.

Definition f_value {f} (x : flt f) : rv :=
  match x with
  | B754_infinity s => RInf s
  | B754_nan => RNaN
  | _ => RFin (B2R x)
  end.
Definition nvalue (a : nty) : ncar a -> rv :=
  match a return ncar a -> rv with
  | NI t => fun x => RFin (IZR (ival x))
  | NF f => fun x => f_value x
  end.

Lemma f_value_finite {f} (x : flt f) : is_finite x = true -> f_value x = RFin (B2R x).
Proof. destruct x; intros H; try discriminate H; reflexivity. Qed.

Lemma f_cast_widen (x : flt F32) : is_finite x = true -> is_finite (f_cast F64 x) = true /\ B2R (f_cast F64 x) = B2R x.
Proof.
  destruct x as [s|s| |s m e Hb]; intros H; try discriminate H; [split; reflexivity|]. clear H.
  set (x := B754_finite s m e Hb : flt F32).
  pose proof (binary_normalize_correct (fprec F64) (femax F64) _ _ mode_NE (cond_Zopp s (Z.pos m)) e s) as K. cbv zeta in K.
  change (F2R (Float radix2 (cond_Zopp s (Z.pos m)) e)) with (B2R x) in K.
  assert (Hf : generic_format radix2 (SpecFloat.fexp (fprec F64) (femax F64)) (B2R x)).
  { assert (Hx : FLT_format radix2 (SpecFloat.emin (fprec F32) (femax F32)) (fprec F32) (B2R x)).
    { apply FLT_format_B2R. reflexivity. }
    destruct Hx as [g H1 H2 H3]. apply (generic_format_FLT radix2 (SpecFloat.emin (fprec F64) (femax F64)) (fprec F64)).
    exists g; [exact H1| |].
    - apply Z.lt_trans with (1 := H2). vm_compute. reflexivity.
    - apply Z.le_trans with (2 := H3). vm_compute. discriminate. }
  rewrite round_generic in K; [|apply valid_rnd_N|exact Hf].
  rewrite Rlt_bool_true in K.
  - destruct K as (K1 & K2 & _). split; [exact K2|exact K1].
  - apply Rlt_trans with (bpow radix2 128).
    + apply (abs_B2R_lt_emax (fprec F32) (femax F32)).
    + apply bpow_lt. vm_compute. reflexivity.
Qed.

Lemma f_value_cast (x : flt F32) : f_value (f_cast F64 x) = f_value x.
Proof.
  destruct (is_finite x) eqn:E.
  - destruct (f_cast_widen x E) as [A B]. rewrite (f_value_finite x E), (f_value_finite _ A), B. reflexivity.
  - destruct x; try discriminate E; reflexivity.
Qed.

(** Equality of floats is equality of values, except for NaN. *)
Lemma feqb_value {f} (x y : flt f) : feqb x y = true <-> f_value x = f_value y /\ f_value x <> RNaN.
Proof.
  unfold feqb. destruct (is_finite x) eqn:Ex, (is_finite y) eqn:Ey.
  - rewrite Beqb_correct by assumption. rewrite (f_value_finite x Ex), (f_value_finite y Ey).
    case Req_bool_spec; intros H; split; intros K; try discriminate.
    + rewrite H. split; congruence. + reflexivity. + destruct K as [K _]. congruence.
  - rewrite (f_value_finite x Ex). destruct y as [?|[|]| |]; try discriminate Ey;
      destruct x as [?|?| |[|] ? ? ?]; try discriminate Ex; simpl; split; intros K; try discriminate; destruct K; discriminate.
  - rewrite (f_value_finite y Ey). destruct x as [?|[|]| |]; try discriminate Ex;
      destruct y as [?|?| |[|] ? ? ?]; try discriminate Ey; simpl; split; intros K; try discriminate; destruct K; discriminate.
  - destruct x as [?|[|]| |]; try discriminate Ex; destruct y as [?|[|]| |]; try discriminate Ey; simpl; split; intros K;
      try discriminate; try reflexivity; try (split; [reflexivity|discriminate]); destruct K; congruence.
Qed.

(** ** The table *)

Ltac on_table H := unfold upcast_table in H; cbn [In] in H;
  repeat match type of H with _ \/ _ => destruct H as [H|H] end;
  [injection H as <- <- .. |contradiction].

(** Every pair of the table is one of these. *)
Lemma table_cases a b : In (a, b) upcast_table ->
  (exists t u, a = NI t /\ b = NI u /\ imin u <= imin t /\ imax t <= imax u) \/
  (exists t g, a = NI t /\ b = NF g /\ - 2 ^ fprec g <= imin t /\ imax t <= 2 ^ fprec g) \/
  (a = NF F32 /\ b = NF F64).
Proof.
  intros H. on_table H;
    try (left; do 2 eexists; split; [reflexivity|split; [reflexivity|vm_compute; split; discriminate]]);
    try (right; left; do 2 eexists; split; [reflexivity|split; [reflexivity|vm_compute; split; discriminate]]);
    (right; right; split; reflexivity).
Qed.

Lemma ncast_value a b (x : ncar a) : In (a, b) upcast_table -> nvalue b (ncast a b x) = nvalue a x.
Proof.
  intros H. destruct (table_cases a b H) as [(t & u & -> & -> & H1 & H2)|[(t & g & -> & -> & H1 & H2)|(-> & ->)]]; cbn [nvalue ncast ncar] in *.
  - f_equal. f_equal. unfold icast. apply ival_mk_int. pose proof (ival_ok x) as Hx.
    apply in_range_iff in Hx. apply in_range_iff. lia.
  - pose proof (ival_ok x) as Hx. apply in_range_iff in Hx.
    destruct (f_of_Z_small g (ival x)) as [A B]; [lia|]. rewrite (f_value_finite _ B), A. reflexivity.
  - apply f_value_cast.
Qed.

(** [==] and [is_zero] of any type are determined by the values. *)
Lemma num_eqb_value chk powi a (x y : ncar a) :
  eqb (num_of chk powi a) x y = true <-> nvalue a x = nvalue a y /\ nvalue a x <> RNaN.
Proof.
  destruct a as [t|f]; cbn [nvalue num_of ncar] in *; cbn [eqb int_num float_num].
  - split.
    + intros E. assert (ival x = ival y) as -> by lia. split; congruence.
    + intros [E _]. injection E as E. apply eq_IZR in E. lia.
  - apply feqb_value.
Qed.

Lemma num_zero_value chk powi a (x : ncar a) :
  is_zero (num_of chk powi a) x = true <-> nvalue a x = RFin 0.
Proof.
  destruct a as [t|f]; cbn [nvalue num_of ncar] in *; cbn [is_zero int_num float_num].
  - split.
    + intros E. assert (ival x = 0) as -> by lia. reflexivity.
    + intros E. injection E as E. apply eq_IZR in E. lia.
  - rewrite feqb_value. simpl. split; [tauto|]. intros ->. split; congruence.
Qed.

Lemma bool_iff a b : (a = true <-> b = true) -> a = b.
Proof. destruct a, b; intros [H1 H2]; auto. symmetry. auto. Qed.

Lemma ncast_eqb chk powi a b x y : In (a, b) upcast_table ->
  eqb (num_of chk powi b) (ncast a b x) (ncast a b y) = eqb (num_of chk powi a) x y.
Proof.
  intros H. apply bool_iff. rewrite !num_eqb_value, !(ncast_value a b _ H). tauto.
Qed.

Lemma ncast_is_zero chk powi a b x : In (a, b) upcast_table ->
  is_zero (num_of chk powi b) (ncast a b x) = is_zero (num_of chk powi a) x.
Proof.
  intros H. apply bool_iff. rewrite !num_zero_value, !(ncast_value a b _ H). tauto.
Qed.

Lemma num_of_chk chk powi a : n_chk (num_of chk powi a) = chk.
Proof. destruct a; reflexivity. Qed.

(** ** Containers: any conversion that preserves [==] and [is_zero]. *)

Section Containers.
Context {A B : Type} (OA : num A) (OB : num B) (cast : A -> B).
Hypothesis Hz : forall x, is_zero OB (cast x) = is_zero OA x.
Hypothesis He : forall x y, eqb OB (cast x) (cast y) = eqb OA x y.
Hypothesis Hchk : n_chk OB = n_chk OA.

Definition cast_terms (ts : list (A * N)) : list (B * N) := map (fun t => (cast (fst t), snd t)) ts.

Lemma fnz_map l : fnz OB (map cast l) = fnz OA l.
Proof. induction l as [|x l IH]; simpl; [reflexivity|]. rewrite Hz, IH. reflexivity. Qed.
Lemma strip_map l : strip OB (map cast l) = map cast (strip OA l).
Proof. unfold strip. rewrite fnz_map. apply skipn_map. Qed.
Lemma strip_strip {T} (O : num T) l : strip O (strip O l) = strip O l.
Proof.
  destruct (strip_split O l) as (_ & _ & _ & _ & H). destruct (strip O l) as [|c r]; [reflexivity|].
  unfold strip at 1. simpl fnz. rewrite H. reflexivity.
Qed.

Lemma enum_terms_map deg i l : enum_terms OB deg i (map cast l) = rmap cast_terms (enum_terms OA deg i l).
Proof.
  revert i. induction l as [|x l IH]; intros i; simpl; [reflexivity|]. rewrite Hz, IH, Hchk.
  destruct (is_zero OA x); [reflexivity|]. destruct (usub _ _ _); simpl; [|reflexivity..].
  destruct (enum_terms OA deg (S i) l); reflexivity.
Qed.

Lemma dense_upcast_eq l : dense_upcast OB cast l = Ok (map cast (strip OA l)).
Proof. unfold dense_upcast. rewrite dense_new_ok, strip_map. reflexivity. Qed.

Lemma dense_degree_map l : dense_degree OB (map cast (strip OA l)) = dense_degree OA l.
Proof.
  rewrite !dense_degree_strip, strip_map, strip_strip. destruct (strip OA l); [reflexivity|]. simpl. unfold len.
  rewrite map_length. reflexivity.
Qed.

Lemma dense_terms_map l : dense_terms OB (map cast (strip OA l)) = rmap cast_terms (dense_terms OA l).
Proof.
  unfold dense_terms. rewrite !slice_from_strip, strip_map, strip_strip. cbn [bind].
  rewrite enum_terms_map. unfold len. rewrite map_length. reflexivity.
Qed.

Lemma terms_eqb_map a b : terms_eqb OB (cast_terms a) (cast_terms b) = terms_eqb OA a b.
Proof.
  revert b. induction a as [|[c d] a IH]; intros [|[c' d'] b]; try reflexivity. simpl.
  rewrite IH, He. reflexivity.
Qed.

Lemma dense_eq_map a b : dense_eq OB (map cast (strip OA a)) (map cast (strip OA b)) = dense_eq OA a b.
Proof.
  unfold dense_eq. rewrite !dense_terms_map. destruct (dense_terms OA a); simpl; [|reflexivity..].
  destruct (dense_terms OA b); simpl; [|reflexivity..]. rewrite terms_eqb_map. reflexivity.
Qed.

Lemma m_get_map k (m : bmap A) : m_get k (sparse_upcast cast m) = option_map cast (m_get k m).
Proof. induction m as [|[k' v] m IH]; simpl; [reflexivity|]. destruct (k =? k')%N; [reflexivity|exact IH]. Qed.

Lemma deg_loop_map c d (m : bmap A) : deg_loop OB (cast c) d (sparse_upcast cast m) =
  (cast (fst (deg_loop OA c d m)), snd (deg_loop OA c d m)).
Proof.
  revert c d. induction m as [|[k v] m IH]; intros c d; simpl; [reflexivity|]. rewrite Hz.
  destruct (_ && _); apply IH.
Qed.

Lemma sparse_degree_map (m : bmap A) : sparse_degree OB (sparse_upcast cast m) = sparse_degree OA m.
Proof.
  destruct m as [|[k v] m]; simpl; [reflexivity|]. rewrite deg_loop_map. destruct (deg_loop OA v k m) as [c d]. simpl.
  rewrite Hz. reflexivity.
Qed.

Lemma filter_map_cast (l : list (N * A)) : filter (fun kv => negb (is_zero OB (snd kv))) (map (fun kv => (fst kv, cast (snd kv))) l)
  = map (fun kv => (fst kv, cast (snd kv))) (filter (fun kv => negb (is_zero OA (snd kv))) l).
Proof.
  induction l as [|[k v] l IH]; simpl; [reflexivity|]. rewrite Hz, IH. destruct (is_zero OA v); reflexivity.
Qed.

Lemma sparse_terms_map (m : bmap A) : sparse_terms OB (sparse_upcast cast m) = cast_terms (sparse_terms OA m).
Proof.
  unfold sparse_terms, sparse_upcast, cast_terms. rewrite <- map_rev, filter_map_cast, !map_map. reflexivity.
Qed.

Lemma forallb_map_cast {X Y} (f : X -> Y) (p : Y -> bool) l : forallb p (map f l) = forallb (fun x => p (f x)) l.
Proof. induction l as [|x l IH]; simpl; [reflexivity|]. rewrite IH. reflexivity. Qed.
Lemma forallb_ext_all {X} (p q : X -> bool) l : (forall x, p x = q x) -> forallb p l = forallb q l.
Proof. intros H. induction l as [|x l IH]; simpl; [reflexivity|]. rewrite H, IH. reflexivity. Qed.

Lemma sparse_eq_map (a b : bmap A) : sparse_eq OB (sparse_upcast cast a) (sparse_upcast cast b) = sparse_eq OA a b.
Proof.
  unfold sparse_eq. f_equal; unfold sparse_upcast at 2; rewrite forallb_map_cast; apply forallb_ext_all; intros [k v]; simpl;
    rewrite m_get_map; [destruct (m_get k b)|destruct (m_get k a)]; simpl; auto.
Qed.

End Containers.
