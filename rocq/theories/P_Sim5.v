(** Property C58, continued: the generic accumulation functions and macros (poly_math), histories of
    calls, and the remaining methods. *)

From Coq Require Import String List NArith ZArith Reals Lia Lra Bool Arith.
From Coq Require Import ZifyBool ZifyNat ZifyN.
From Flocq Require Import Core BinarySingleNaN.
From Verif Require Import Base Num Terms Dense Sparse Mono Bino Trino ArrPoly PolyMath Strs Integr Roots.
From Verif Require Import Floats Upcast Sim SimSparse SimFixed SimText SimInst SimRoots P_Sim2.
Import ListNotations.

(** Every generic function, with the methods [SD] of a type in the debug build and [SR] in the release
    build; [reset] is its set_to_zero. *)
Definition accumulation_kept {T P} (D R : num T) (SD SR : mutpoly T P) (reset : P -> P) : Prop :=
  (forall ts p, kept (add_poly SD ts p) (add_poly SR ts p)) /\
  (forall ts p, kept (sub_poly SD ts p) (sub_poly SR ts p)) /\
  (forall rhs lhs p, kept (mul_poly_vec D SD rhs lhs p) (mul_poly_vec R SR rhs lhs p)) /\
  (forall xs p, kept (poly_add_into SD xs p) (poly_add_into SR xs p)) /\
  (forall xs p, kept (poly_sub_into SD xs p) (poly_sub_into SR xs p)) /\
  (forall h p, kept (run SD reset h p) (run SR reset h p)).

Section Accumulation.
Context {T P : Type} (D R : num T) (SD SR : mutpoly T P).
Context (Hadd : forall p c d, kept (s_add SD p c d) (s_add SR p c d)).
Context (Hsub : forall p c d, kept (s_sub SD p c d) (s_sub SR p c d)).
Context (Hmul : forall x y, kept (mul D x y) (mul R x y)).
Context (HD : n_chk D = true).

Lemma kept_uadd chk x y : kept (uadd true x y) (uadd chk x y).
Proof.
  intros v H. destruct (uadd_checked_ok _ _ _ H) as [-> L]. apply uadd_small, L.
Qed.

Lemma kept_apply_terms (f g : P -> T -> N -> mutres P) : (forall p c d, kept (f p c d) (g p c d)) ->
  forall ts p, kept (apply_terms f ts p) (apply_terms g ts p).
Proof.
  intros H ts. induction ts as [|[c d] ts IH]; intros p; cbn [apply_terms]; [apply kept_refl|].
  apply kept_bind; [apply H|]. intros r. destruct (snd r); [apply kept_refl|apply IH].
Qed.

Lemma kept_apply_all (f g : P -> T -> N -> mutres P) : (forall p c d, kept (f p c d) (g p c d)) ->
  forall xs p, kept (apply_all f xs p) (apply_all g xs p).
Proof.
  intros H xs. induction xs as [|x xs IH]; intros p; cbn [apply_all]; [apply kept_refl|].
  apply kept_bind; [apply kept_apply_terms, H|]. intros r. apply kept_bind; [apply IH|]. intros r'. apply kept_refl.
Qed.

Lemma kept_mul_row rc rd lhs : forall p, kept (PolyMath.mul_row D SD rc rd lhs p) (PolyMath.mul_row R SR rc rd lhs p).
Proof.
  induction lhs as [|[lc ld] lhs IH]; intros p; cbn [PolyMath.mul_row]; [apply kept_refl|].
  apply kept_bind; [apply Hmul|]. intros c. rewrite HD. apply kept_bind; [apply kept_uadd|]. intros d.
  apply kept_bind; [apply Hadd|]. intros r. destruct (snd r); [apply kept_refl|apply IH].
Qed.

Lemma kept_mul_poly_vec rhs lhs : forall p, kept (mul_poly_vec D SD rhs lhs p) (mul_poly_vec R SR rhs lhs p).
Proof.
  induction rhs as [|[rc rd] rhs IH]; intros p; cbn [mul_poly_vec]; [apply kept_refl|].
  apply kept_bind; [apply kept_mul_row|]. intros r. destruct (snd r); [apply kept_refl|apply IH].
Qed.

Lemma kept_run reset h : forall p, kept (run SD reset h p) (run SR reset h p).
Proof.
  induction h as [|x h IH]; intros p; cbn [run]; [apply kept_refl|]. apply kept_bind.
  - destruct x; cbn [do_call]; [apply Hadd|apply Hsub|apply kept_refl].
  - intros r. apply kept_bind; [apply IH|]. intros r'. apply kept_refl.
Qed.

Lemma accumulation reset : accumulation_kept D R SD SR reset.
Proof.
  repeat split; intros.
  - apply kept_apply_terms, Hadd.
  - apply kept_apply_terms, Hsub.
  - apply kept_mul_poly_vec.
  - apply kept_apply_all, Hadd.
  - apply kept_apply_all, Hsub.
  - apply kept_run.
Qed.
End Accumulation.

Lemma release_mul powi a x y : kept (mul (num_of true powi a) x y) (mul (num_of false powi a) x y).
Proof.
  destruct a as [t|f]; cbn [num_of int_num float_num mul]; [|apply kept_refl].
  intros v. unfold arith. destruct (in_range t _); [auto|discriminate].
Qed.
Lemma debug_chk powi a : n_chk (num_of true powi a) = true.
Proof. destruct a; reflexivity. Qed.

Theorem C58_poly_math : forall powi a,
  let D := num_of true powi a in let R := num_of false powi a in
  (forall reset, accumulation_kept D R (dense_mut D) (dense_mut R) reset) /\
  (forall reset, accumulation_kept D R (sparse_mut D) (sparse_mut R) reset) /\
  (forall reset, accumulation_kept D R (mono_mut D) (mono_mut R) reset) /\
  (forall reset, accumulation_kept D R (bino_mut D) (bino_mut R) reset) /\
  (forall reset, accumulation_kept D R (trino_mut D) (trino_mut R) reset) /\
  (forall reset, accumulation_kept D R (arr_mut D) (arr_mut R) reset) /\
  (forall xs, kept (poly_add_macro D xs) (poly_add_macro R xs)) /\
  (forall lhs xs, kept (poly_sub_macro D lhs xs) (poly_sub_macro R lhs xs)).
Proof.
  intros powi a D R.
  assert (M : forall x y, kept (mul D x y) (mul R x y)) by apply release_mul. pose proof (debug_chk powi a) as C. fold D in C.
  pose proof (C58_dense powi a) as Hd. pose proof (C58_sparse powi a) as Hs. destruct (C58_fixed powi a) as (Hm & Hb & Ht & Ha).
  fold D R in Hd, Hs, Hm, Hb, Ht, Ha. cbv zeta in Hd, Hs.
  assert (Dd : forall reset, accumulation_kept D R (dense_mut D) (dense_mut R) reset).
  { intros reset. apply accumulation; auto; intros p c d; cbn [dense_mut s_add s_sub]; apply (Hd p p c). }
  split; [exact Dd|].
  split; [intros reset; apply accumulation; auto; intros p c d; cbn [sparse_mut s_add s_sub]; apply (Hs p p c)|].
  split; [intros reset; apply accumulation; auto; intros p c d; cbn [mono_mut s_add s_sub]; apply (Hm p p c)|].
  split; [intros reset; apply accumulation; auto; intros p c d; cbn [bino_mut s_add s_sub]; apply (Hb p p c)|].
  split; [intros reset; apply accumulation; auto; intros p c d; cbn [trino_mut s_add s_sub]; apply (Ht p p c)|].
  split; [intros reset; apply accumulation; auto; intros p c d; cbn [arr_mut s_add s_sub]; apply (Ha p p c)|].
  destruct (Dd (fun p => p)) as (_ & _ & _ & A & B & _).
  split; intros.
  - apply kept_bind; [apply A|]. intros r. apply kept_refl.
  - apply kept_bind; [apply A|]. intros r. apply kept_bind; [apply B|]. intros r'. apply kept_refl.
Qed.

(** The remaining methods. *)
Theorem C58_rest : forall powi a (X : txt (ncar a)) (K : rops (ncar a)),
  let D := num_of true powi a in let R := num_of false powi a in
  (forall l, kept (dense_trim D l) (dense_trim R l)) /\
  (forall m, sparse_trim R m = sparse_trim D m) /\
  (forall p q, kept (dense_sub D p q) (dense_sub R p q)) /\
  (forall p, dense_is_zero R p = dense_is_zero D p) /\ (forall p, sparse_is_zero R p = sparse_is_zero D p) /\
  (forall p, mono_is_zero R p = mono_is_zero D p) /\ (forall p, bino_is_zero R p = bino_is_zero D p) /\
  (forall p, trino_is_zero R p = trino_is_zero D p) /\
  (forall p d, mono_term_with_degree R p d = mono_term_with_degree D p d) /\
  (forall p d, kept (bino_term_with_degree D p d) (bino_term_with_degree R p d)) /\
  (forall p d, kept (trino_term_with_degree D p d) (trino_term_with_degree R p d)) /\
  (forall p d, kept (arr_term_with_degree D p d) (arr_term_with_degree R p d)) /\
  (forall p, arr_degree R p = arr_degree D p) /\
  (forall p x, kept (arr_eval D p x) (arr_eval R p x)) /\
  (forall p c, kept (dense_replace_c D p c) (dense_replace_c R p c)) /\
  (forall p c, kept (sparse_replace_c D p c) (sparse_replace_c R p c)) /\
  (forall p, kept (dense_integral_show D X p) (dense_integral_show R X p)) /\
  (forall p, kept (sparse_integral_show D X p) (sparse_integral_show R X p)) /\
  (forall p, kept (trino_discriminant D K p) (trino_discriminant R K p)).
Proof.
  intros powi a X K D R.
  pose proof (C58_dense powi a) as Hd. pose proof (C58_sparse powi a) as Hs. destruct (C58_fixed powi a) as (Hm & Hb & Ht & Ha).
  pose proof (C58_text powi a X) as HX.
  fold D R in Hd, Hs, Hm, Hb, Ht, Ha, HX. cbv zeta in Hd, Hs, HX.
  assert (IZ : forall x, is_zero R x = is_zero D x) by (intros x; unfold D, R; destruct a; reflexivity).
  assert (TD : forall l d, kept (term_with_deg D l d) (term_with_deg R l d)).
  { intros l d. apply (Hd l l (zero D)). }
  assert (DZ : forall l, dense_is_zero R l = dense_is_zero D l).
  { intros l. unfold dense_is_zero. rewrite (proj1 (proj2 (Hd l l (zero D)))). reflexivity. }
  assert (SZ : forall l, sparse_is_zero R l = sparse_is_zero D l).
  { intros l. unfold sparse_is_zero. rewrite (proj1 (Hs l l (zero D))). reflexivity. }
  assert (M : forall x y, kept (mul D x y) (mul R x y)) by apply release_mul.
  split; [intros l; apply (Hd l l (zero D))|].
  split; [intros m; apply filter_ext; intros kv; rewrite IZ; reflexivity|].
  split; [intros p q; apply (Hd p q (zero D))|].
  split; [exact DZ|]. split; [exact SZ|].
  split; [intros p; unfold mono_is_zero; rewrite (proj1 (Hm p p (zero D))); reflexivity|].
  split; [intros p; unfold bino_is_zero; rewrite (proj1 (Hb p p (zero D))); reflexivity|].
  split; [intros p; unfold trino_is_zero; rewrite (proj1 (Ht p p (zero D))); reflexivity|].
  split; [intros p d; unfold mono_term_with_degree, mono_as_term, term_new; rewrite IZ; reflexivity|].
  split; [intros p d; apply TD|]. split; [intros p d; apply TD|]. split; [intros p d; apply TD|].
  split; [intros p; apply (Hd p p (zero D))|].
  split; [intros p x; apply (Hd p p x)|].
  split; [intros p x; apply (Hd p p x)|].
  split; [intros p x; apply (Hs p p x)|].
  split; [intros p; unfold dense_integral_show; rewrite DZ; destruct (dense_is_zero D p); [apply kept_refl|]; apply kept_bind; [apply HX|intros s; apply kept_refl]|].
  split; [intros p; unfold sparse_integral_show; rewrite SZ; destruct (sparse_is_zero D p); [apply kept_refl|]; apply kept_bind; [apply HX|intros s; apply kept_refl]|].
  intros p. unfold trino_discriminant, discriminant_trinomial. apply kept_bind; [apply M|]. intros bb.
  apply kept_bind; [apply M|]. intros ac. apply kept_bind; [apply M|]. intros ac4.
  unfold D, R. destruct a as [t|f]; cbn [num_of int_num float_num sub]; [|apply kept_refl].
  intros v. unfold arith. destruct (in_range t _); [auto|discriminate].
Qed.

(** Two additions to an i8 line, the second refused: both builds return the same state and error. *)
Example C58_poly_math_case : forall powi, let D := num_of true powi (NI I8) in let R := num_of false powi (NI I8) in
  let p := MkBino (mk_int I8 1) (mk_int I8 2) in
  let ts := [(mk_int I8 5, 1%N); (mk_int I8 7, 2%N)] in
  exists v, add_poly (bino_mut D) ts p = Ok v /\ add_poly (bino_mut R) ts p = Ok v /\ snd v <> None /\ ival (bc0 (fst v)) = 6%Z.
Proof.
  intros powi D R p ts. eexists. split; [vm_compute; reflexivity|]. split.
  - destruct (C58_poly_math powi (NI I8)) as (_ & _ & _ & H & _). apply (H (fun p => p)). vm_compute. reflexivity.
  - split; [discriminate|reflexivity].
Qed.

Print Assumptions C58_poly_math.
Print Assumptions C58_rest.
