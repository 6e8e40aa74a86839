(** Property C57: computing and then converting to a wider type gives the same as converting first. *)

From Coq Require Import List NArith ZArith Reals Lia Lra Bool Arith.
From Coq Require Import ZifyBool ZifyNat ZifyN.
From Flocq Require Import Core BinarySingleNaN.
From Verif Require Import Base Num Spec Laws Terms Dense DenseFacts Sparse Mono Bino Trino ArrPoly Strs Integr.
From Verif Require Import Numerics Floats FloatFacts Upcast UpcastFacts Sim SimSparse SimFixed SimInst.
Import ListNotations.

(** Whatever [x] returns, [y] returns the counterpart, unless the larger coefficients do not fit
    the address space. *)
Definition follows {X Y} (R : X -> Y -> Prop) (x : res X) (y : res Y) : Prop :=
  forall v, x = Ok v -> (exists w, y = Ok w /\ R v w) \/ y = Panic PCapacity.

Lemma rres_follows {X Y} (R : X -> Y -> Prop) x y : rres true R x y -> follows R x y.
Proof. intros H v ->. destruct H as [H|[_ H]]; [left|right]; exact H. Qed.
Ltac fol L := apply rres_follows; eapply L; eassumption.

(** Converting gives same-valued inputs: [Polynomial] (whose conversion also drops leading zeros),
    [SparsePolynomial], [Monomial], [LinearBinomial], [QuadraticTrinomial]. *)
Theorem C57_inputs : forall chk powi a b, In (a, b) upcast_table ->
  (forall l, exists r, dense_upcast (num_of chk powi b) (ncast a b) l = Ok r /\
     Forall2 (same_value a b) (skipn (length l - length r) l) r) /\
  (forall m, Forall2 (entry_rel (same_value a b)) m (sparse_upcast (ncast a b) m)) /\
  (forall m, mono_rel (same_value a b) m (mono_upcast (ncast a b) m)) /\
  (forall m, bino_rel (same_value a b) m (bino_upcast (ncast a b) m)) /\
  (forall m, trino_rel (same_value a b) m (trino_upcast (ncast a b) m)).
Proof.
  intros chk powi a b H. pose proof (ncast_value a b) as V. split; [|split; [|split; [|split]]].
  - intros l. assert (Hz : forall x, is_zero (num_of chk powi b) (ncast a b x) = is_zero (num_of chk powi a) x)
      by (intros x; apply ncast_is_zero, H).
    exists (map (ncast a b) (strip (num_of chk powi a) l)). split; [apply (dense_upcast_eq _ _ _ Hz)|].
    rewrite map_length. destruct (strip_split (num_of chk powi a) l) as (pre & E & _). rewrite E at 1 3.
    rewrite app_length, Nat.add_sub. rewrite skipn_app, skipn_all, Nat.sub_diag. simpl.
    clear E. induction (strip _ l) as [|x m IH]; cbn [map]; constructor; [apply V, H|exact IH].
  - intros m. induction m as [|[k v] m IH]; simpl; constructor; [|exact IH]. split; [reflexivity|]. apply V, H.
  - intros m. split; [apply V, H|reflexivity].
  - intros m. split; apply V, H.
  - intros m. repeat split; apply V, H.
Qed.

(** [Polynomial] over an integer type [t], in a debug build, against any type [b] it converts to, in
    either build: constructors, queries, arithmetic, evaluation, derivative. *)
Theorem C57_dense : forall chk powi t b, In (NI t, b) upcast_table ->
  let A := num_of true powi (NI t) in let B := num_of chk powi b in
  let V := same_value (NI t) b in let P := Forall2 V in
  forall p p' q q' c c', P p p' -> P q q' -> V c c' ->
  follows P (dense_new A p) (dense_new B p') /\
  dense_degree A p = dense_degree B p' /\
  follows (Forall2 (term_rel V)) (dense_terms A p) (dense_terms B p') /\
  follows eq (dense_eq A p q) (dense_eq B p' q') /\
  follows P (dense_add A p q) (dense_add B p' q') /\
  follows P (dense_add_assign A p q) (dense_add_assign B p' q') /\
  follows P (dense_sub_assign A p q) (dense_sub_assign B p' q') /\
  follows P (dense_sub_assign_ref A p q) (dense_sub_assign_ref B p' q') /\
  follows P (dense_neg A p) (dense_neg B p') /\
  follows P (dense_mul A p q) (dense_mul B p' q') /\
  follows P (dense_mul_ref A p q) (dense_mul_ref B p' q') /\
  follows P (dense_scale A p c) (dense_scale B p' c') /\
  follows P (dense_scale_assign A p c) (dense_scale_assign B p' c') /\
  follows V (dense_eval A p c) (dense_eval B p' c') /\
  ((len p <= USIZE_MAX)%N -> follows P (dense_derivative A p) (dense_derivative B p')) /\
  (forall d, follows (Term_rel V) (term_with_deg A p d) (term_with_deg B p' d)) /\
  (forall d, follows P (dense_add_term A p c d) (dense_add_term B p' c' d)) /\
  (forall fuel e, follows P (dense_pow A fuel p e) (dense_pow B fuel p' e)) /\
  (forall fuel left k, follows P (dense_shift A fuel left p k) (dense_shift B fuel left p' k)) /\
  (forall fuel left k, follows P (dense_shift_assign A fuel left p k) (dense_shift_assign B fuel left p' k)) /\
  (forall ts ts', Forall2 (term_rel V) ts ts' -> follows P (dense_from_terms A ts) (dense_from_terms B ts')).
Proof.
  intros chk powi t b H A B V P p p' q q' c c' Hp Hq Hc. pose proof (table_sim chk powi t b H) as S.
  split; [fol @sim_dense_new|]. split; [eapply sim_degree; eassumption|]. split; [fol @sim_dense_terms|].
  split; [fol @sim_dense_eq|]. split; [fol @sim_dense_add|]. split; [fol @sim_dense_add_assign|].
  split; [fol @sim_dense_sub_assign|]. split; [fol @sim_dense_sub_assign_ref|]. split; [fol @sim_dense_neg|].
  split; [fol @sim_dense_mul|]. split; [fol @sim_dense_mul_ref|]. split; [fol @sim_dense_scale|].
  split; [fol @sim_dense_scale_assign|]. split; [fol @sim_dense_eval|]. split; [intros; fol @sim_dense_derivative|].
  split; [intros; fol @sim_term_with_deg|]. split; [intros; fol @sim_dense_add_term|]. split; [intros; fol @sim_dense_pow|].
  split; [intros; fol @sim_dense_shift|]. split; [intros; fol @sim_dense_shift_assign|]. intros; fol @sim_dense_from_terms.
Qed.

(** [SparsePolynomial]. *)
Theorem C57_sparse : forall chk powi t b, In (NI t, b) upcast_table ->
  let A := num_of true powi (NI t) in let B := num_of chk powi b in
  let V := same_value (NI t) b in let P := Forall2 (entry_rel V) in
  forall p p' q q' c c', P p p' -> P q q' -> V c c' ->
  sparse_degree A p = sparse_degree B p' /\
  Forall2 (term_rel V) (sparse_terms A p) (sparse_terms B p') /\
  sparse_eq A p q = sparse_eq B p' q' /\
  follows P (sparse_add A p q) (sparse_add B p' q') /\
  follows P (sparse_add_assign A p q) (sparse_add_assign B p' q') /\
  follows P (sparse_sub A p q) (sparse_sub B p' q') /\
  follows P (sparse_neg A p) (sparse_neg B p') /\
  follows P (sparse_mul A p q) (sparse_mul B p' q') /\
  follows P (sparse_scale A p c) (sparse_scale B p' c') /\
  follows P (sparse_scale_assign A p c) (sparse_scale_assign B p' c') /\
  ((forall k v, In (k, v) p -> (k <= USIZE_MAX)%N) -> follows P (sparse_derivative A p) (sparse_derivative B p')) /\
  (forall d, Term_rel V (sparse_term_with_degree A p d) (sparse_term_with_degree B p' d)) /\
  (forall d, follows P (sparse_add_term A p c d) (sparse_add_term B p' c' d)) /\
  (forall fuel e, follows P (sparse_pow A fuel p e) (sparse_pow B fuel p' e)) /\
  (forall fuel left k, follows P (sparse_shift A fuel left p k) (sparse_shift B fuel left p' k)) /\
  (forall l l', Forall2 V l l' -> follows P (sparse_from_vec A l) (sparse_from_vec B l') /\
     follows P (sparse_sub_dense A p l) (sparse_sub_dense B p' l')) /\
  (forall ts ts', Forall2 (term_rel V) ts ts' -> follows P (sparse_from_terms A ts) (sparse_from_terms B ts')).
Proof.
  intros chk powi t b H A B V P p p' q q' c c' Hp Hq Hc. pose proof (table_sim chk powi t b H) as S.
  split; [eapply sim_sparse_degree; eassumption|]. split; [eapply sim_sparse_terms; eassumption|].
  split; [eapply sim_sparse_eq; eassumption|]. split; [fol @sim_sparse_add|]. split; [fol @sim_sparse_add_assign|].
  split; [fol @sim_sparse_sub|]. split; [fol @sim_sparse_neg|]. split; [fol @sim_sparse_mul|]. split; [fol @sim_sparse_scale|].
  split; [fol @sim_sparse_scale_assign|]. split; [intros; fol @sim_sparse_derivative|].
  split; [intros; eapply sim_sparse_term_with_degree; eassumption|]. split; [intros; fol @sim_sparse_add_term|].
  split; [intros; fol @sim_sparse_pow|]. split; [intros; fol @sim_sparse_shift|].
  split; [intros; split; [fol @sim_sparse_from_vec|fol @sim_sparse_sub_dense]|]. intros; fol @sim_sparse_from_terms.
Qed.

(** [Monomial], [LinearBinomial], [QuadraticTrinomial]. *)
Theorem C57_fixed : forall chk powi t b, In (NI t, b) upcast_table ->
  let A := num_of true powi (NI t) in let B := num_of chk powi b in
  let V := same_value (NI t) b in
  forall c c', V c c' ->
  (forall p p' q q', mono_rel V p p' -> mono_rel V q q' ->
     mono_degree A p = mono_degree B p' /\ mono_eq A p q = mono_eq B p' q' /\
     Forall2 (term_rel V) (mono_terms A p) (mono_terms B p') /\
     follows (mono_rel V) (mono_neg A p) (mono_neg B p') /\ follows (mono_rel V) (mono_mul A p q) (mono_mul B p' q') /\
     follows (mono_rel V) (mono_scale A p c) (mono_scale B p' c') /\
     ((mdeg p <= USIZE_MAX)%N -> follows (mono_rel V) (mono_derivative A p) (mono_derivative B p')) /\
     (forall fuel left k, follows (mono_rel V) (mono_shift A fuel left p k) (mono_shift B fuel left p' k)) /\
     (forall d, follows (mut_rel (mono_rel V)) (mono_try_add_term A p c d) (mono_try_add_term B p' c' d)) /\
     (forall d, follows (mut_rel (mono_rel V)) (mono_try_sub_term A p c d) (mono_try_sub_term B p' c' d))) /\
  (forall p p' q q', bino_rel V p p' -> bino_rel V q q' ->
     bino_degree A p = bino_degree B p' /\ bino_eq A p q = bino_eq B p' q' /\
     follows (Forall2 (term_rel V)) (bino_terms A p) (bino_terms B p') /\
     follows (bino_rel V) (bino_add A p q) (bino_add B p' q') /\ follows (bino_rel V) (bino_sub A p q) (bino_sub B p' q') /\
     follows (bino_rel V) (bino_neg A p) (bino_neg B p') /\ follows (bino_rel V) (bino_scale A p c) (bino_scale B p' c') /\
     follows V (bino_eval A p c) (bino_eval B p' c') /\ bino_rel V (bino_derivative A p) (bino_derivative B p') /\
     (forall k, bino_rel V (bino_shr A p k) (bino_shr B p' k)) /\
     (forall d, follows (mut_rel (bino_rel V)) (bino_try_add_term A p c d) (bino_try_add_term B p' c' d)) /\
     (forall d, follows (mut_rel (bino_rel V)) (bino_try_sub_term A p c d) (bino_try_sub_term B p' c' d))) /\
  (forall p p' q q', trino_rel V p p' -> trino_rel V q q' ->
     trino_degree A p = trino_degree B p' /\ trino_eq A p q = trino_eq B p' q' /\
     follows (Forall2 (term_rel V)) (trino_terms A p) (trino_terms B p') /\
     follows (trino_rel V) (trino_add A p q) (trino_add B p' q') /\ follows (trino_rel V) (trino_sub A p q) (trino_sub B p' q') /\
     follows (trino_rel V) (trino_neg A p) (trino_neg B p') /\ follows (trino_rel V) (trino_scale A p c) (trino_scale B p' c') /\
     follows V (trino_eval A p c) (trino_eval B p' c') /\ follows (trino_rel V) (trino_derivative A p) (trino_derivative B p') /\
     (forall k, trino_rel V (trino_shr A p k) (trino_shr B p' k)) /\
     (forall d, follows (mut_rel (trino_rel V)) (trino_try_add_term A p c d) (trino_try_add_term B p' c' d)) /\
     (forall d, follows (mut_rel (trino_rel V)) (trino_try_sub_term A p c d) (trino_try_sub_term B p' c' d))).
Proof.
  intros chk powi t b H A B V c c' Hc. pose proof (table_sim chk powi t b H) as S.
  split; [|split]; intros p p' q q' Hp Hq.
  - split; [eapply sim_mono_degree; eassumption|]. split; [eapply sim_mono_eq; eassumption|].
    split; [eapply sim_mono_terms; eassumption|]. split; [fol @sim_mono_neg|]. split; [fol @sim_mono_mul|].
    split; [fol @sim_mono_scale|]. split; [intros; fol @sim_mono_derivative|]. split; [intros; fol @sim_mono_shift|].
    split; intros; [fol @sim_mono_try_add_term|fol @sim_mono_try_sub_term].
  - split; [eapply sim_bino_degree; eassumption|]. split; [eapply sim_bino_eq; eassumption|].
    split; [fol @sim_bino_terms|]. split; [fol @sim_bino_add|]. split; [fol @sim_bino_sub|]. split; [fol @sim_bino_neg|].
    split; [fol @sim_bino_scale|]. split; [fol @sim_bino_eval|]. split; [eapply sim_bino_derivative; eassumption|].
    split; [intros; eapply sim_bino_shr; eassumption|].
    split; intros; [fol @sim_bino_try_add_term|fol @sim_bino_try_sub_term].
  - split; [eapply sim_trino_degree; eassumption|]. split; [eapply sim_trino_eq; eassumption|].
    split; [fol @sim_trino_terms|]. split; [fol @sim_trino_add|]. split; [fol @sim_trino_sub|]. split; [fol @sim_trino_neg|].
    split; [fol @sim_trino_scale|]. split; [fol @sim_trino_eval|]. split; [fol @sim_trino_derivative|].
    split; [intros; eapply sim_trino_shr; eassumption|].
    split; intros; [fol @sim_trino_try_add_term|fol @sim_trino_try_sub_term].
Qed.

(** Between integer types, division, integrals and powers of coefficients too. *)
Theorem C57_int_division : forall chk powi t u, In (NI t, NI u) upcast_table ->
  let A := num_of true powi (NI t) in let B := num_of chk powi (NI u) in
  let V := same_value (NI t) (NI u) in let P := Forall2 V in let M := Forall2 (entry_rel V) in
  forall c c' d d', V c c' -> V d d' ->
  (forall p p' q q', P p p' -> P q q' -> (len p <= USIZE_MAX)%N ->
     (forall fuel, follows (fun x y => P (fst x) (fst y) /\ P (snd x) (snd y)) (dense_div_mod A fuel p q) (dense_div_mod B fuel p' q')) /\
     (forall fuel, follows P (dense_floor_div A fuel p q) (dense_floor_div B fuel p' q')) /\
     (forall fuel, follows P (dense_rem A fuel p q) (dense_rem B fuel p' q')) /\
     (forall fuel, follows P (dense_rem_assign A fuel p q) (dense_rem_assign B fuel p' q')) /\
     follows P (dense_div_scalar A p c) (dense_div_scalar B p' c') /\
     follows P (dense_div_scalar_assign A p c) (dense_div_scalar_assign B p' c') /\
     follows P (dense_integral A p) (dense_integral B p') /\
     follows V (dense_integral_eval A p c d) (dense_integral_eval B p' c' d')) /\
  (forall p p' q q', M p p' -> M q q' ->
     (forall fuel, follows (fun x y => M (fst x) (fst y) /\ M (snd x) (snd y)) (sparse_div_mod A fuel p q) (sparse_div_mod B fuel p' q')) /\
     (forall fuel, follows M (sparse_rem A fuel p q) (sparse_rem B fuel p' q')) /\
     follows M (sparse_div_scalar A p c) (sparse_div_scalar B p' c') /\
     follows M (sparse_div_scalar_assign A p c) (sparse_div_scalar_assign B p' c') /\
     follows M (sparse_integral A p) (sparse_integral B p') /\
     follows V (sparse_eval A p c) (sparse_eval B p' c')) /\
  (forall p p', mono_rel V p p' ->
     follows V (mono_eval A p c) (mono_eval B p' c') /\
     follows (mono_rel V) (mono_div_scalar A p c) (mono_div_scalar B p' c') /\
     follows M (mono_integral A p) (mono_integral B p') /\
     (forall e, follows (mono_rel V) (mono_pow A p e) (mono_pow B p' e))) /\
  (forall p p', bino_rel V p p' ->
     follows (bino_rel V) (bino_div_scalar A p c) (bino_div_scalar B p' c') /\ follows P (bino_integral A p) (bino_integral B p')) /\
  (forall p p', trino_rel V p p' ->
     follows (trino_rel V) (trino_div_scalar A p c) (trino_div_scalar B p' c') /\ follows P (trino_integral A p) (trino_integral B p')).
Proof.
  intros chk powi t u H A B V P M c c' d d' Hc Hd. pose proof (table_sim chk powi t _ H) as S.
  pose proof (table_sim_div chk powi t u H) as D. pose proof (table_sim_upow chk powi t u H) as U.
  split; [|split; [|split; [|split]]].
  - intros p p' q q' Hp Hq Hl. split; [intros; fol @sim_dense_div_mod|]. split; [intros; fol @sim_dense_floor_div|].
    split; [intros; fol @sim_dense_rem|]. split; [intros; fol @sim_dense_rem_assign|]. split; [fol @sim_dense_div_scalar|].
    split; [fol @sim_dense_div_scalar_assign|]. split; [fol @sim_dense_integral|]. fol @sim_dense_integral_eval.
  - intros p p' q q' Hp Hq. split; [intros; fol @sim_sparse_div_mod|]. split; [intros; fol @sim_sparse_rem|].
    split; [fol @sim_sparse_div_scalar|]. split; [fol @sim_sparse_div_scalar_assign|]. split; [fol @sim_sparse_integral|].
    fol @sim_sparse_eval.
  - intros p p' Hp. split; [fol @sim_mono_eval|]. split; [fol @sim_mono_div_scalar|]. split; [fol @sim_mono_integral|].
    intros; fol @sim_mono_pow.
  - intros p p' Hp. split; [fol @sim_bino_div_scalar|fol @sim_bino_integral].
  - intros p p' Hp. split; [fol @sim_trino_div_scalar|fol @sim_trino_integral].
Qed.

(** The restrictions are needed: rounding in a single-precision source, wrapping in a release
    source, and truncating integer division against floating-point division are all lost by converting first. *)
Lemma f2_head {X Y} (R : X -> Y -> Prop) x y l m : Forall2 R (x :: l) (y :: m) -> R x y.
Proof. intros H. inversion H; assumption. Qed.
Lemma one_add chk powi f (x y : flt f) : dense_add_assign (num_of chk powi (NF f)) [x] [y] = Ok [fadd x y].
Proof. destruct f, chk; reflexivity. Qed.
Lemma one_div chk powi f (x y : flt f) : dense_div_scalar_assign (num_of chk powi (NF f)) [x] y = Ok [fdiv x y].
Proof. destruct f, chk; reflexivity. Qed.
Theorem C57_float_source_refuted : forall powi, exists p q p' q' : list _,
  Forall2 (same_value (NF F32) (NF F64)) p p' /\ Forall2 (same_value (NF F32) (NF F64)) q q' /\
  ~ follows (Forall2 (same_value (NF F32) (NF F64)))
      (dense_add_assign (num_of true powi (NF F32)) p q) (dense_add_assign (num_of true powi (NF F64)) p' q').
Proof.
  intros powi. exists [f_of_Z F32 (2 ^ 24)], [f_of_Z F32 1], [f_cast F64 (f_of_Z F32 (2 ^ 24))], [f_cast F64 (f_of_Z F32 1)].
  split; [|split].
  - constructor; [apply (f_value_cast (f_of_Z F32 (2 ^ 24)))|constructor].
  - constructor; [apply (f_value_cast (f_of_Z F32 1))|constructor].
  - intros F. specialize (F _ (one_add true powi F32 _ _)). rewrite (one_add true powi F64) in F.
    destruct F as [(w & E & F)|E]; [|discriminate E]. apply (f_equal (fun r => match r with Ok w => w | _ => [] end)) in E.
    subst w. pose proof (f2_head _ _ _ _ _ F) as F1. unfold same_value in F1. cbn [nvalue] in F1.
    assert (G : feqb (fadd (f_cast F64 (f_of_Z F32 (2 ^ 24))) (f_cast F64 (f_of_Z F32 1))) (f_cast F64 (fadd (f_of_Z F32 (2 ^ 24)) (f_of_Z F32 1))) = true).
    { apply feqb_value. split; [rewrite f_value_cast; exact F1|]. vm_compute. discriminate. }
    vm_compute in G. discriminate G.
Qed.
Theorem C57_release_source_refuted : forall powi, exists p q p' q' : list _,
  Forall2 (same_value (NI U8) (NI U16)) p p' /\ Forall2 (same_value (NI U8) (NI U16)) q q' /\
  ~ follows (Forall2 (same_value (NI U8) (NI U16)))
      (dense_add (num_of false powi (NI U8)) p q) (dense_add (num_of false powi (NI U16)) p' q').
Proof.
  intros powi. exists [mk_int U8 200], [mk_int U8 100], [mk_int U16 200], [mk_int U16 100].
  split; [repeat constructor|]. split; [repeat constructor|].
  intros F. destruct (F [mk_int U8 300] ltac:(vm_compute; reflexivity)) as [(w & E & G)|E].
  - vm_compute in E. injection E as <-. inversion G as [|x y l m G1 G2]; subst. vm_compute in G1. injection G1. intros K.
    revert K. apply Rgt_not_eq. lra.
  - vm_compute in E. discriminate E.
Qed.
Theorem C57_float_division_refuted : forall powi, exists (p : list (ncar (NI I32))) (p' : list (ncar (NF F64))) c c',
  Forall2 (same_value (NI I32) (NF F64)) p p' /\ same_value (NI I32) (NF F64) c c' /\
  ~ follows (Forall2 (same_value (NI I32) (NF F64)))
      (dense_div_scalar_assign (num_of true powi (NI I32)) p c) (dense_div_scalar_assign (num_of true powi (NF F64)) p' c').
Proof.
  intros powi. exists [mk_int I32 7], [ncast (NI I32) (NF F64) (mk_int I32 7)], (mk_int I32 2), (ncast (NI I32) (NF F64) (mk_int I32 2)).
  split; [constructor; [|constructor]; apply ncast_value; simpl; tauto|]. split; [apply ncast_value; simpl; tauto|].
  intros F. specialize (F [mk_int I32 3] ltac:(vm_compute; reflexivity)).  rewrite (one_div true powi F64) in F. destruct F as [(w & E & F)|E].
  - destruct w as [|w1 [|w2 w]]; [inversion F| |inversion F as [|x y l m F1 F2]; subst; inversion F2].
    inversion F as [|x y l m F1 F2]; subst. unfold same_value in F1.
    assert (K : nvalue (NI I32) (mk_int I32 3) = nvalue (NF F64) (ncast (NI I32) (NF F64) (mk_int I32 3)))
      by (symmetry; apply ncast_value; simpl; tauto).
    rewrite K in F1. assert (G : feqb w1 (ncast (NI I32) (NF F64) (mk_int I32 3)) = true).
    { apply feqb_value. split; [exact F1|]. cbn [nvalue] in F1. rewrite F1. vm_compute. discriminate. }
    assert (K2 : w1 = fdiv (ncast (NI I32) (NF F64) (mk_int I32 7)) (ncast (NI I32) (NF F64) (mk_int I32 2)))
      by (apply (f_equal (fun r => match r with Ok (w :: _) => w | _ => w1 end)) in E; symmetry; exact E).
    subst w1. vm_compute in G. discriminate G.
  - discriminate E.
Qed.

(** (3x + 250)(x + 2) over u8, widened to f32: the debug source run overflows at 250 * 2, so nothing is
    claimed; (3x + 25)(x + 2) returns, and so does the f32 product, with the same coefficients. *)
Example C57_dense_case : forall powi,
  dense_mul (num_of true powi (NI U8)) (map (mk_int U8) [3; 250]%Z) (map (mk_int U8) [1; 2]%Z) = Panic POverflow /\
  rmap (map ival) (dense_mul (int_num true U8) (map (mk_int U8) [3; 25]%Z) (map (mk_int U8) [1; 2]%Z)) = Ok [3; 31; 50]%Z /\
  rmap (map B2SF) (dense_mul (float_num true F32 (powi F32)) (map (f_of_Z F32) [3; 25]%Z) (map (f_of_Z F32) [1; 2]%Z)) =
    Ok (map B2SF (map (f_of_Z F32) [3; 31; 50]%Z)) /\
  In (NI U8, NF F32) upcast_table.
Proof. intros powi. split; [vm_compute; reflexivity|]. split; [vm_compute; reflexivity|]. split; [vm_compute; reflexivity|]. simpl; tauto. Qed.
Example C57_inputs_case :
  rmap (map ival) (dense_upcast (int_num true I64) (fun x : int I8 => ncast (NI I8) (NI I64) x) (map (mk_int I8) [0; 3; -128]%Z)) = Ok [3; -128]%Z.
Proof. vm_compute. reflexivity. Qed.
Example C57_sparse_case : forall t, t = I8 \/ t = I32 ->
  rmap (map (fun kv => (fst kv, ival (snd kv)))) (sparse_mul (int_num true t) [(0, mk_int t 5); (9, mk_int t (-3))]%N [(1, mk_int t 7)]%N) =
    Ok [(1%N, 35%Z); (10%N, (-21)%Z)].
Proof. intros t [-> | ->]; vm_compute; reflexivity. Qed.
Example C57_fixed_case : forall powi,
  rmap ival (trino_eval (int_num true I16) (MkTrino (mk_int I16 (-2)) (mk_int I16 3) (mk_int I16 100)) (mk_int I16 9)) = Ok (-35)%Z /\
  rmap B2SF (trino_eval (float_num true F64 powi) (MkTrino (f_of_Z F64 (-2)) (f_of_Z F64 3) (f_of_Z F64 100)) (f_of_Z F64 9)) = Ok (B2SF (f_of_Z F64 (-35))).
Proof. intros powi. split; vm_compute; reflexivity. Qed.
Example C57_int_division_case : forall t, t = I8 \/ t = I64 ->
  rmap (fun x => (map ival (fst x), map ival (snd x)))
    (dense_div_mod (int_num true t) 10 (map (mk_int t) [6; 7; -100]%Z) (map (mk_int t) [2; 1]%Z)) = Ok ([3; 2]%Z, [-102]%Z).
Proof. intros t [-> | ->]; vm_compute; reflexivity. Qed.
