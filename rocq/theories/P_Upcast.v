(** Property C49: upcasts preserve the polynomial. *)

From Coq Require Import List NArith ZArith Reals Lia Lra Bool Arith.
From Coq Require Import ZifyBool ZifyNat ZifyN.
From Flocq Require Import Core BinarySingleNaN.
From Verif Require Import Base Num Spec Laws Terms Dense DenseFacts Sparse SparseFacts Mono Bino Trino.
From Verif Require Import Numerics Floats FloatFacts Upcast UpcastFacts.
Import ListNotations.

(** For each of the 41 conversions: [nvalue] is the real number, infinity or NaN a value stands for. *)
Theorem C49_value : forall a b, In (a, b) upcast_table -> forall x, nvalue b (ncast a b x) = nvalue a x.
Proof. intros a b H x. apply ncast_value, H. Qed.

(** [==] is kept in both directions, zero to zero and non-zero to non-zero. *)
Theorem C49_equality : forall chk powi a b, In (a, b) upcast_table ->
  (forall x y, eqb (num_of chk powi b) (ncast a b x) (ncast a b y) = eqb (num_of chk powi a) x y) /\
  (forall x, is_zero (num_of chk powi b) (ncast a b x) = is_zero (num_of chk powi a) x).
Proof. intros chk powi a b H. split; intros; [apply ncast_eqb, H|apply ncast_is_zero, H]. Qed.

(** Value of the coefficient of x^d of a vector of coefficients, highest degree first. *)
Definition vcoef (a : nty) (l : list (ncar a)) (d : nat) : rv := nth d (rev (map (nvalue a) l)) (RFin 0).
(** The same for an association of degrees with coefficients. *)
Definition scoefv (a : nty) (m : bmap (ncar a)) (d : N) : rv :=
  match m_get d m with Some c => nvalue a c | None => RFin 0 end.

Lemma vcoef_strip chk powi a l d : vcoef a (strip (num_of chk powi a) l) d = vcoef a l d.
Proof.
  destruct (strip_split (num_of chk powi a) l) as (pre & E & _ & Hp & _). rewrite E at 2. unfold vcoef.
  rewrite map_app, rev_app_distr. set (s := rev (map (nvalue a) (strip _ l))).
  destruct (Nat.lt_ge_cases d (length s)) as [H|H].
  - rewrite app_nth1 by exact H. reflexivity.
  - rewrite app_nth2, nth_overflow by exact H.
    assert (Z : Forall (fun v => v = RFin 0) (rev (map (nvalue a) pre))).
    { apply Forall_rev, Forall_map. eapply Forall_impl; [|exact Hp]. intros c Hc. apply (num_zero_value chk powi a c), Hc. }
    destruct (Nat.lt_ge_cases (d - length s) (length (rev (map (nvalue a) pre)))) as [K|K].
    + symmetry. apply (proj1 (Forall_forall _ _) Z). apply nth_In, K.
    + rewrite nth_overflow by exact K. reflexivity.
Qed.

(** Polynomial: same coefficient values, degree, listing, equality. *)
Theorem C49_dense : forall chk powi a b, In (a, b) upcast_table -> forall l,
  exists r, dense_upcast (num_of chk powi b) (ncast a b) l = Ok r /\
  (forall d, vcoef b r d = vcoef a l d) /\
  dense_degree (num_of chk powi b) r = dense_degree (num_of chk powi a) l /\
  dense_terms (num_of chk powi b) r = rmap (map (fun t => (ncast a b (fst t), snd t))) (dense_terms (num_of chk powi a) l) /\
  forall l' r', dense_upcast (num_of chk powi b) (ncast a b) l' = Ok r' ->
    dense_eq (num_of chk powi b) r r' = dense_eq (num_of chk powi a) l l'.
Proof.
  intros chk powi a b H l. destruct (C49_equality chk powi a b H) as [He Hz].
  assert (Hc : n_chk (num_of chk powi b) = n_chk (num_of chk powi a)) by (rewrite !num_of_chk; reflexivity).
  exists (map (ncast a b) (strip (num_of chk powi a) l)).
  rewrite (dense_upcast_eq _ _ _ Hz). split; [reflexivity|]. split; [|split; [|split]].
  - intros d. rewrite <- (vcoef_strip chk powi a l d). unfold vcoef. rewrite map_map. do 2 f_equal. apply map_ext.
    intros x. apply ncast_value, H.
  - apply (dense_degree_map _ _ _ Hz).
  - apply (dense_terms_map _ _ _ Hz Hc).
  - intros l' r' H'. rewrite (dense_upcast_eq _ _ _ Hz) in H'. inv_ok. apply (dense_eq_map _ _ _ Hz He Hc).
Qed.

(** SparsePolynomial. *)
Theorem C49_sparse : forall chk powi a b, In (a, b) upcast_table -> forall m,
  let r := sparse_upcast (ncast a b) m in
  (forall d, scoefv b r d = scoefv a m d) /\
  sparse_degree (num_of chk powi b) r = sparse_degree (num_of chk powi a) m /\
  sparse_terms (num_of chk powi b) r = map (fun t => (ncast a b (fst t), snd t)) (sparse_terms (num_of chk powi a) m) /\
  forall m', sparse_eq (num_of chk powi b) r (sparse_upcast (ncast a b) m') = sparse_eq (num_of chk powi a) m m'.
Proof.
  intros chk powi a b H m r. destruct (C49_equality chk powi a b H) as [He Hz]. subst r.
  split; [|split; [|split]].
  - intros d. unfold scoefv. rewrite m_get_map. destruct (m_get d m); simpl; [apply ncast_value, H|reflexivity].
  - apply (sparse_degree_map _ _ _ Hz).
  - apply (sparse_terms_map _ _ _ Hz).
  - intros m'. apply (sparse_eq_map _ _ _ Hz He).
Qed.

(** Monomial, LinearBinomial, QuadraticTrinomial. *)
Theorem C49_fixed : forall chk powi a b, In (a, b) upcast_table ->
  let OA := num_of chk powi a in let OB := num_of chk powi b in let up := ncast a b in
  (forall m, nvalue b (mcoef (mono_upcast up m)) = nvalue a (mcoef m) /\ mdeg (mono_upcast up m) = mdeg m /\
     mono_degree OB (mono_upcast up m) = mono_degree OA m /\
     forall m', mono_eq OB (mono_upcast up m) (mono_upcast up m') = mono_eq OA m m') /\
  (forall p, (forall d, vcoef b (bino_list (bino_upcast up p)) d = vcoef a (bino_list p) d) /\
     bino_degree OB (bino_upcast up p) = bino_degree OA p /\
     forall p', bino_eq OB (bino_upcast up p) (bino_upcast up p') = bino_eq OA p p') /\
  (forall p, (forall d, vcoef b (trino_list (trino_upcast up p)) d = vcoef a (trino_list p) d) /\
     trino_degree OB (trino_upcast up p) = trino_degree OA p /\
     forall p', trino_eq OB (trino_upcast up p) (trino_upcast up p') = trino_eq OA p p').
Proof.
  intros chk powi a b H OA OB up. destruct (C49_equality chk powi a b H) as [He Hz].
  fold OA OB up in He, Hz. split; [|split].
  - intros m. cbn [mono_upcast mcoef mdeg]. split; [apply ncast_value, H|]. split; [reflexivity|]. split.
    + unfold mono_degree. cbn [mono_upcast mcoef mdeg]. rewrite Hz. reflexivity.
    + intros m'. unfold mono_eq, mono_as_term, term_new. cbn [mono_upcast mcoef mdeg]. rewrite !Hz.
      destruct (is_zero OA (mcoef m)), (is_zero OA (mcoef m')); simpl; rewrite ?He; reflexivity.
  - intros p. split; [|split].
    + intros d. unfold vcoef. cbn [bino_list bino_upcast bc0 bc1 map]. rewrite !(ncast_value a b _ H). reflexivity.
    + unfold bino_degree. cbn [bino_upcast bc0 bc1]. rewrite !Hz. reflexivity.
    + intros p'. unfold bino_eq. cbn [bino_upcast bc0 bc1]. rewrite !He. reflexivity.
  - intros p. split; [|split].
    + intros d. unfold vcoef. cbn [trino_list trino_upcast tc0 tc1 tc2 map]. rewrite !(ncast_value a b _ H). reflexivity.
    + unfold trino_degree. cbn [trino_upcast tc0 tc1 tc2]. rewrite !Hz. reflexivity.
    + intros p'. unfold trino_eq. cbn [trino_upcast tc0 tc1 tc2]. rewrite !He. reflexivity.
Qed.

Example C49_case :
  length upcast_table = 41%nat /\
  rmap (map ival) (dense_upcast (int_num true I16) (fun x : int U8 => ncast (NI U8) (NI I16) x) (map (mk_int U8) [0; 255; 7]%Z))
    = Ok [255; 7]%Z /\
  rmap (map (fun x : flt F32 => B2SF x)) (dense_upcast (float_num true F32 (fun x _ => x))
      (fun x : int I16 => ncast (NI I16) (NF F32) x) (map (mk_int I16) [-32768; 3]%Z))
    = Ok [SpecFloat.S754_finite true 8388608 (-8); SpecFloat.S754_finite false 12582912 (-22)].
Proof. vm_compute. auto. Qed.

Print Assumptions C49_dense.
