(** Property C85: polynomials with complex coefficients. *)

From Coq Require Import List NArith ZArith Reals Lia Lra Bool Arith Sorted QArith Qcanon.
From Coq Require Import ZifyBool ZifyNat ZifyN.
From Verif Require Import Base Num Spec SpecFacts Laws Terms Dense DenseFacts DenseMul DenseDiv DenseCalcInt Sparse SparseFacts SparseArith Coef Mono.
From Verif Require Import RealNum Complex Sim SimSparse P_Sim1 P_Dense1 P_Dense2 P_Sparse1 P_Sparse2 P_Degree SpecDegree.
Import ListNotations.

(** ** Specification *)

(** The real and the imaginary polynomial of a list or map of complex coefficients. *)
Definition d_re {T} (R : comring) (den : T -> car R) (l : list (T * T)) : poly R := dcoef R (fun z => den (fst z)) l.
Definition d_im {T} (R : comring) (den : T -> car R) (l : list (T * T)) : poly R := dcoef R (fun z => den (snd z)) l.
Definition s_re {T} (R : comring) (den : T -> car R) (m : bmap (T * T)) : poly R := scoef R (fun z => den (fst z)) m.
Definition s_im {T} (R : comring) (den : T -> car R) (m : bmap (T * T)) : poly R := scoef R (fun z => den (snd z)) m.

(** (A + iB) (C + iD) = (AC - BD) + i (AD + BC). *)
Definition is_product {R} (A B C D P Q : poly R) : Prop :=
  peq P (psub (pmul A C) (pmul B D)) /\ peq Q (padd (pmul A D) (pmul B C)).

Definition conj {R : comring} (z : car R * car R) : car R * car R := (fst z, ropp (snd z)).

(** A real number as a complex one. *)
Definition emb {t} (a : int t) (z : int t * int t) : Prop := fst z = a /\ ival (snd z) = 0%Z.

(** ** Lemmas *)

Lemma parts_dense {T} (R : comring) (den : T -> car R) l d : dcoef (cx_ring R) (cx_den den) l d = (d_re R den l d, d_im R den l d).
Proof.
  unfold d_re, d_im, dcoef, be_coef. rewrite <- !map_rev. revert d. induction (rev l) as [|z k IH]; intros [|d]; try reflexivity. apply IH.
Qed.
Lemma parts_sparse {T} (R : comring) (den : T -> car R) m d : scoef (cx_ring R) (cx_den den) m d = (s_re R den m d, s_im R den m d).
Proof.
  unfold s_re, s_im, scoef. induction m as [|[k z] m IH]; [reflexivity|]. cbn [sentries map terms_coef fst snd] in *. unfold sentries in *.
  unfold padd, pmono. change (terms_coef (map (fun kv : N * (T * T) => (cx_den den (snd kv), fst kv)) m) d) with
    (@terms_coef (cx_ring R) (map (fun kv : N * (T * T) => (cx_den den (snd kv), fst kv)) m) d).
  rewrite IH. destruct (Nat.eqb d (N.to_nat k)); reflexivity.
Qed.
Lemma part_eq {A B} (a a' : A) (b b' : B) : (a, b) = (a', b') -> a = a' /\ b = b'.
Proof. intros H. injection H as -> ->. auto. Qed.

Lemma pmul_parts (R : comring) (p q : poly (cx_ring R)) A B C D : (forall d, p d = (A d, B d)) -> (forall d, q d = (C d, D d)) ->
  forall d, @pmul (cx_ring R) p q d = (psub (pmul A C) (pmul B D) d, padd (pmul A D) (pmul B C) d).
Proof.
  intros Hp Hq d. pose proof (pmul_re R p q d) as E1. pose proof (pmul_im R p q d) as E2. unfold p_re, p_im in E1, E2.
  rewrite (surjective_pairing (@pmul (cx_ring R) p q d)). rewrite E1, E2. unfold psub, padd.
  assert (HA : peq (p_re R p) A) by (intros i; unfold p_re; rewrite Hp; reflexivity).
  assert (HB : peq (p_im R p) B) by (intros i; unfold p_im; rewrite Hp; reflexivity).
  assert (HC : peq (p_re R q) C) by (intros i; unfold p_re; rewrite Hq; reflexivity).
  assert (HD : peq (p_im R q) D) by (intros i; unfold p_im; rewrite Hq; reflexivity).
  rewrite (pmul_ext _ _ _ _ HA HC), (pmul_ext _ _ _ _ HB HD), (pmul_ext _ _ _ _ HA HD), (pmul_ext _ _ _ _ HB HC). reflexivity.
Qed.

(** *** Values at conjugate points *)
Section Conj.
Context (R : comring).
Add Ring Rring_conj : (r_theory R).
Lemma opp_0 : ropp r0 = @r0 R.
Proof. ring. Qed.
Lemma conj_add (x y : car (cx_ring R)) : conj (@radd (cx_ring R) x y) = @radd (cx_ring R) (conj x) (conj y).
Proof. unfold conj. cbn. unfold cx_add. cbn. f_equal. ring. Qed.
Lemma conj_mul (x y : car (cx_ring R)) : conj (@rmul (cx_ring R) x y) = @rmul (cx_ring R) (conj x) (conj y).
Proof. unfold conj. cbn. unfold cx_mul. cbn. f_equal; ring. Qed.
Lemma conj_pow (x : car (cx_ring R)) n : conj (@rpow (cx_ring R) x n) = @rpow (cx_ring R) (conj x) n.
Proof. induction n as [|n IH]; [|cbn [rpow]; rewrite conj_mul, IH; reflexivity]. cbn [rpow]. unfold conj. cbn. f_equal. apply opp_0. Qed.
Lemma conj_sumn (f : nat -> car (cx_ring R)) n : conj (@sumn (cx_ring R) f n) = @sumn (cx_ring R) (fun i => conj (f i)) n.
Proof. induction n as [|n IH]; [|cbn [sumn]; rewrite conj_add, IH; reflexivity]. cbn [sumn]. unfold conj. cbn. f_equal. apply opp_0. Qed.
Lemma conj_value (p : poly (cx_ring R)) x v : (forall d, snd (p d) = r0) -> is_value p x v -> is_value p (conj x) (conj v).
Proof.
  intros Hp (n & Hn & ->). exists n. split; [exact Hn|]. rewrite conj_sumn. apply sumn_ext. intros i _. rewrite conj_mul, conj_pow. f_equal.
  unfold conj. specialize (Hp i). destruct (p i) as [u w]. cbn in *. rewrite Hp, opp_0. reflexivity.
Qed.
End Conj.

(** *** The integers inside the Gaussian integers *)
Lemma zero_fits t : in_range t 0 = true.
Proof. destruct t; reflexivity. Qed.
Lemma ival_0 t : ival (mk_int t 0) = 0%Z.
Proof. apply ival_mk_int, zero_fits. Qed.
Lemma arith_0 chk t : arith chk t 0 = Ok (mk_int t 0).
Proof. unfold arith. rewrite zero_fits. reflexivity. Qed.
Lemma arith_ival chk t (a : int t) : arith chk t (ival a) = Ok a.
Proof.
  unfold arith. assert (E : in_range t (ival a) = true) by (destruct a; assumption). assert (F : mk_int t (ival a) = a) by (apply int_eq, ival_mk_int, E).
  rewrite E, F. reflexivity.
Qed.
Lemma emb_sim chk t : sim (int_num chk t) (complex_num (int_num chk t)) emb true.
Proof.
  constructor; try (cbn; auto; fail); try (unfold emb; cbn; split; [reflexivity|apply ival_0]).
  - intros a b [<- H]. cbn. rewrite H. cbn. rewrite andb_true_r. reflexivity.
  - intros a b a' b' [<- H] [<- H']. cbn. rewrite H, H'. cbn. rewrite andb_true_r. reflexivity.
  - intros a b [<- H]. reflexivity.
  - intros a b [<- H]. reflexivity.
  - intros a b a' b' [<- H] [<- H']. cbn [complex_num add int_num]. rewrite H, H'. change (0 + 0)%Z with 0%Z. rewrite arith_0.
    destruct (arith chk t _); cbn; auto. left. eexists. split; [reflexivity|]. split; [reflexivity|apply ival_0].
  - intros a b a' b' [<- H] [<- H']. cbn [complex_num sub int_num]. rewrite H, H'. change (0 - 0)%Z with 0%Z. rewrite arith_0.
    destruct (arith chk t _); cbn; auto. left. eexists. split; [reflexivity|]. split; [reflexivity|apply ival_0].
  - intros a b a' b' [<- H] [<- H']. cbn [complex_num mul sub add int_num]. rewrite H, H'. rewrite !Z.mul_0_r, Z.mul_0_l, arith_0.
    destruct (arith chk t (ival (fst b) * ival (fst b'))) as [x| |]; cbn [bind rres]; auto. rewrite ival_0, Z.sub_0_r, Z.add_0_r, arith_0, arith_ival. cbn [bind].
    left. eexists. split; [reflexivity|]. split; [reflexivity|apply ival_0].
  - intros a b [<- H]. cbn [complex_num neg int_num]. rewrite H. change (- 0)%Z with 0%Z. rewrite arith_0.
    destruct (arith chk t _); cbn; auto. left. eexists. split; [reflexivity|]. split; [reflexivity|apply ival_0].
  - intros a b [<- H]. cbn [complex_num absv int_num]. destruct (signed t); [destruct (arith chk t _); cbn; auto|cbn];
      left; eexists; (split; [reflexivity|]); split; auto.
  - intros n a _ H. cbn [complex_num of_cont]. rewrite H. eexists. split; [reflexivity|]. split; [reflexivity|apply ival_0].
  - intros n a _ H. cbn [complex_num of_exact]. rewrite H. eexists. split; [reflexivity|]. split; [reflexivity|apply ival_0].
Qed.

(** ** Theorems *)

(** [Polynomial<Complex<N>>]: sums, differences, negation and products, part by part, for every
    [N] that computes in a commutative ring. *)
Theorem C85_dense : forall T (O : num T) R den, lawful O R den -> let C := complex_num O in forall a b r : list (T * T),
  (dense_add C a b = Ok r \/ dense_add_assign C a b = Ok r ->
    peq (d_re R den r) (padd (d_re R den a) (d_re R den b)) /\ peq (d_im R den r) (padd (d_im R den a) (d_im R den b))) /\
  (dense_sub C a b = Ok r \/ dense_sub_assign C a b = Ok r \/ dense_sub_assign_ref C a b = Ok r ->
    peq (d_re R den r) (psub (d_re R den a) (d_re R den b)) /\ peq (d_im R den r) (psub (d_im R den a) (d_im R den b))) /\
  (dense_neg C a = Ok r -> peq (d_re R den r) (popp (d_re R den a)) /\ peq (d_im R den r) (popp (d_im R den a))) /\
  (vec_ok C a -> vec_ok C b -> dense_mul C a b = Ok r \/ dense_mul_ref C a b = Ok r ->
    is_product (d_re R den a) (d_im R den a) (d_re R den b) (d_im R den b) (d_re R den r) (d_im R den r)).
Proof.
  intros T O R den L C a b r. pose proof (complex_lawful O R den L) as LC. fold C in LC.
  split; [|split; [|split]].
  - intros H. pose proof (C06_dense_add _ _ _ _ LC _ _ _ H) as K.
    split; intros d; specialize (K d); unfold padd in *; rewrite !parts_dense in K; apply part_eq in K; apply K.
  - intros H. pose proof (C07_dense_sub _ _ _ _ LC _ _ _ H) as K.
    split; intros d; specialize (K d); unfold psub in *; rewrite !parts_dense in K; apply part_eq in K; apply K.
  - intros H. pose proof (C07_dense_neg _ _ _ _ LC _ _ H) as K.
    split; intros d; specialize (K d); unfold popp in *; rewrite !parts_dense in K; apply part_eq in K; apply K.
  - intros Ha Hb H. pose proof (C08_dense_mul _ _ _ _ LC _ _ _ Ha Hb H) as K.
    split; intros d; specialize (K d); rewrite parts_dense in K;
      rewrite (pmul_parts R _ _ _ _ _ _ (parts_dense R den a) (parts_dense R den b)) in K; apply part_eq in K; apply K.
Qed.

(** [SparsePolynomial<Complex<N>>]. *)
Theorem C85_sparse : forall T (O : num T) R den, lawful O R den -> let C := complex_num O in forall a b r : bmap (T * T), swf a -> swf b ->
  (sparse_add C a b = Ok r \/ sparse_add_assign C a b = Ok r ->
    peq (s_re R den r) (padd (s_re R den a) (s_re R den b)) /\ peq (s_im R den r) (padd (s_im R den a) (s_im R den b))) /\
  (sparse_sub C a b = Ok r ->
    peq (s_re R den r) (psub (s_re R den a) (s_re R den b)) /\ peq (s_im R den r) (psub (s_im R den a) (s_im R den b))) /\
  (sparse_neg C a = Ok r -> peq (s_re R den r) (popp (s_re R den a)) /\ peq (s_im R den r) (popp (s_im R den a))) /\
  (n_chk O = true -> sparse_mul C a b = Ok r ->
    is_product (s_re R den a) (s_im R den a) (s_re R den b) (s_im R den b) (s_re R den r) (s_im R den r)).
Proof.
  intros T O R den L C a b r Ha Hb. pose proof (complex_lawful O R den L) as LC. fold C in LC.
  split; [|split; [|split]].
  - intros H. pose proof (proj2 (C23_sparse_add _ _ _ _ LC _ _ _ Ha Hb H)) as K.
    split; intros d; specialize (K d); unfold padd in *; rewrite !parts_sparse in K; apply part_eq in K; apply K.
  - intros H. pose proof (proj2 (C23_sparse_sub _ _ _ _ LC _ _ _ Ha Hb H)) as K.
    split; intros d; specialize (K d); unfold psub in *; rewrite !parts_sparse in K; apply part_eq in K; apply K.
  - intros H. pose proof (proj2 (C23_sparse_neg _ _ _ _ LC _ _ Ha H)) as K.
    split; intros d; specialize (K d); unfold popp in *; rewrite !parts_sparse in K; apply part_eq in K; apply K.
  - intros Hc H. pose proof (proj2 (C24_sparse_mul _ _ _ _ LC _ _ _ Ha Hb (or_introl Hc) H)) as K.
    split; intros d; specialize (K d); rewrite parts_sparse in K;
      rewrite (pmul_parts R _ _ _ _ _ _ (parts_sparse R den a) (parts_sparse R den b)) in K; apply part_eq in K; apply K.
Qed.

(** Evaluation, powers and scaling: the value at a complex point of the complex polynomial. *)
Theorem C85_value : forall T (O : num T) R den, lawful O R den -> let C := complex_num O in
  let P (l : list (T * T)) : poly (cx_ring R) := fun d => (d_re R den l d, d_im R den l d) in
  (forall l x v, dense_eval C l x = Ok v -> is_value (P l) (cx_den den x) (cx_den den v)) /\
  (forall fuel l e r, (2 <= n_max_len O)%N -> vec_ok C l -> dense_pow C fuel l e = Ok r -> peq (P r) (ppow (P l) (N.to_nat e))) /\
  (forall l c r, dense_scale C l c = Ok r \/ dense_scale_assign C l c = Ok r -> peq (P r) (pscale (P l) (cx_den den c))).
Proof.
  intros T O R den L C P. pose proof (complex_lawful O R den L) as LC. fold C in LC.
  assert (E : forall l, peq (dcoef (cx_ring R) (cx_den den) l) (P l)) by (intros l d; apply parts_dense).
  split; [|split].
  - intros l x v H. eapply is_value_ext; [apply E|]. apply (C12_dense_eval _ _ _ _ LC _ _ _ H).
  - intros fuel l e r Hm Hv H. assert (Hc : (1 <= n_max_len C)%N) by (cbn; apply N.div_le_lower_bound; lia).
    pose proof (C10_dense_pow _ _ _ _ LC Hc _ _ _ _ Hv H) as K. eapply peq_trans; [apply peq_sym, E|]. eapply peq_trans; [exact K|].
    apply ppow_ext, E.
  - intros l c r H. pose proof (C11_dense_scale _ _ _ _ LC _ _ _ H) as K. intros d. rewrite <- (E r d), (K d). unfold pscale. rewrite (E l d). reflexivity.
Qed.

(** A polynomial with real coefficients takes conjugate values at conjugate points: non-real roots
    come in pairs. *)
Theorem C85_conj : forall T (O : num T) R den, lawful O R den -> let C := complex_num O in forall l x v x' v',
  Forall (fun z => den (snd z) = r0) l -> cx_den den x' = conj (cx_den den x) ->
  dense_eval C l x = Ok v -> dense_eval C l x' = Ok v' -> cx_den den v' = conj (cx_den den v).
Proof.
  intros T O R den L C l x v x' v' Hl Hx H H'. pose proof (complex_lawful O R den L) as LC. fold C in LC.
  apply (C12_dense_eval _ _ _ _ LC) in H, H'. rewrite Hx in H'. eapply is_value_fun; [exact H'|]. apply conj_value; [|exact H].
  intros d. rewrite parts_dense. cbn [snd]. unfold d_im, dcoef, be_coef. rewrite <- map_rev.
  apply (Forall_rev) in Hl. revert d. induction Hl as [|z k Hz _ IH]; intros [|d]; cbn; auto.
Qed.

(** Quotient and remainder. Gaussian integers: whatever is returned satisfies the division equation.
    Exact fields with "sum of squares zero only if both are zero": always returned. *)
Theorem C85_div_mod : 
  (forall t fuel (p d q r : list (int t * int t)), let C := complex_num (int_num true t) in
    vec_ok C p -> dense_div_mod C fuel p d = Ok (q, r) ->
    let P := dcoef (cx_ring Z_ring) (cx_den (R := Z_ring) ival) in euclid (P p) (P d) (P q) (P r)) /\
  (forall t fuel (p d r : list (int t * int t)), let C := complex_num (int_num true t) in
    dense_rem_assign C fuel p d = Ok r ->
    let P := dcoef (cx_ring Z_ring) (cx_den (R := Z_ring) ival) in exists q, pfin q /\ euclid (P p) (P d) q (P r)) /\
  (forall T (O : num T) R den, lawful O R den -> total_ops O -> exact_div O R den -> domain R -> real_like R ->
    let C := complex_num O in let P := dcoef (cx_ring R) (cx_den den) in
    forall p d fuel, vec_ok C p -> ~ peq (P d) pzero -> (length p <= fuel)%nat ->
    exists q r, dense_div_mod C fuel p d = Ok (q, r) /\ euclid (P p) (P d) (P q) (P r)).
Proof.
  split; [|split].
  - intros t fuel p d q r C Hp H P. apply (C18_dense_div_mod _ C _ _ (complex_lawful _ _ _ (checked_lawful t)) (gauss_nice t) _ _ _ _ _ Hp H).
  - intros t fuel p d r C H P. apply (C20_dense_rem_assign _ C _ _ (complex_lawful _ _ _ (checked_lawful t)) (gauss_nice t) _ _ _ _ H).
  - intros T O R den L HT X D S C P p d fuel Hp Hd Hf.
    apply (C18_dense_div_mod_field _ C _ _ (complex_lawful _ _ _ L) (complex_total _ HT) (complex_exact_div _ _ _ L HT X D S)); assumption.
Qed.

Lemma Z_real_like : real_like Z_ring.
Proof. intros a b H. cbn in *. nia. Qed.
Lemma Qc_real_like : real_like Qc_ring.
Proof.
  assert (sq : forall a : Qc, (0 <= a * a)%Qc).
  { intros a. unfold Qcle. change (this (a * a)%Qc) with (Qred (this a * this a)). rewrite Qred_correct. unfold Qle. cbn [this Qnum Qden Qmult Q2Qc].
    cbn. rewrite Z.mul_1_r. apply Z.square_nonneg. }
  assert (half : forall a b : Qc, (a * a + b * b = 0)%Qc -> a = 0%Qc).
  { intros a b H. assert (E : (a * a = 0)%Qc).
    { apply Qcle_antisym; [|apply sq]. rewrite <- H. rewrite <- (Qcplus_0_r (a * a)) at 1. apply Qcplus_le_compat; [apply Qcle_refl|apply sq]. }
    destruct (Qcmult_integral _ _ E); assumption. }
  intros a b H. cbn in *. split; [apply (half a b H)|apply (half b a)]. rewrite Qcplus_comm. exact H.
Qed.
Lemma R_domain : domain R_ring.
Proof. intros a b H. apply Rmult_integral, H. Qed.
Lemma R_real_like : real_like R_ring.
Proof. intros a b H. cbn in *. split; nra. Qed.

(** The coefficient types these statements cover. *)
Theorem C85_types :
  (forall t, lawful (complex_num (int_num true t)) (cx_ring Z_ring) (cx_den (R := Z_ring) ival) /\ domain (cx_ring Z_ring) /\
     nice_div (complex_num (int_num true t))) /\
  (forall t, lawful (complex_num (int_num false t)) (cx_ring (w_ring t)) (cx_den (R := w_ring t) (fun a => a)) /\ total_ops (complex_num (int_num false t))) /\
  (lawful (complex_num Qc_num) (cx_ring Qc_ring) (cx_den (R := Qc_ring) (fun a => a)) /\ total_ops (complex_num Qc_num) /\ domain (cx_ring Qc_ring) /\
     exact_div (complex_num Qc_num) (cx_ring Qc_ring) (cx_den (R := Qc_ring) (fun a => a))) /\
  (forall chk, lawful (complex_num (R_num chk)) (cx_ring R_ring) (cx_den (R := R_ring) (fun a => a)) /\ total_ops (complex_num (R_num chk)) /\ domain (cx_ring R_ring) /\
     exact_div (complex_num (R_num chk)) (cx_ring R_ring) (cx_den (R := R_ring) (fun a => a))).
Proof.
  split; [|split; [|split]].
  - intros t. split; [apply complex_lawful, checked_lawful|split; [exact (cx_domain _ Z_domain Z_real_like)|exact (gauss_nice t)]].
  - intros t. split; [apply (complex_lawful _ (w_ring t)), wrapping_lawful|apply complex_total, wrapping_total].
  - split; [apply (complex_lawful _ Qc_ring), Qc_lawful|]. split; [apply complex_total, Qc_total|]. split; [exact (cx_domain _ Qc_domain Qc_real_like)|].
    apply (complex_exact_div Qc_ring); [apply Qc_lawful|apply Qc_total|apply Qc_exact_div|apply Qc_domain|apply Qc_real_like].
  - intros chk. split; [apply (complex_lawful _ R_ring), R_lawful|]. split; [apply complex_total, R_total|]. split; [exact (cx_domain _ R_domain R_real_like)|].
    apply (complex_exact_div R_ring); [apply R_lawful|apply R_total|apply R_exact_div|apply R_domain|apply R_real_like].
Qed.

(** Degrees of products add, and powers multiply them: complex numbers over the integers, the
    rationals or the reals have no zero divisors. *)
Theorem C85_degree : forall T (O : num T) R den, lawful O R den -> domain R -> real_like R -> r1 <> @r0 R -> let C := complex_num O in
  (forall a b r, vec_ok C a -> vec_ok C b -> dense_mul C a b = Ok r \/ dense_mul_ref C a b = Ok r -> ddeg C r = deg_add (ddeg C a) (ddeg C b)) /\
  (forall fuel p e r, (2 <= n_max_len O)%N -> vec_ok C p -> dense_pow C fuel p e = Ok r -> ddeg C r = deg_mul (N.to_nat e) (ddeg C p)) /\
  (forall a c r, is_zero C c = false -> dense_scale C a c = Ok r \/ dense_scale_assign C a c = Ok r -> ddeg C r = ddeg C a).
Proof.
  intros T O R den L D S H10 C. assert (K : @r1 (cx_ring R) <> r0) by (intros E; injection E; exact H10).
  destruct (C74_dense_product _ C _ _ (complex_lawful _ _ _ L) (cx_domain _ D S) K) as (A1 & A2 & A3). split; [exact A1|split; [|exact A3]].
  intros fuel p e r Hm. apply A2. cbn. apply N.div_le_lower_bound; lia.
Qed.

(** Gaussian integers: the remainder by x - a is the value at a. *)
Theorem C85_remainder : forall t, let C := complex_num (int_num true t) in let P := dcoef (cx_ring Z_ring) (cx_den (R := Z_ring) ival) in
  forall fuel p d (a v : int t * int t), peq (P d) (@be_coef (cx_ring Z_ring) [r1; ropp (cx_den (R := Z_ring) ival a)]) -> dense_eval C p a = Ok v ->
  (forall q r, vec_ok C p -> dense_div_mod C fuel p d = Ok (q, r) -> dense_eq C r [v] = Ok true) /\
  (forall r, dense_rem_assign C fuel p d = Ok r -> dense_eq C r [v] = Ok true).
Proof.
  intros t C P fuel p d a v Hd Hv. assert (K : @r1 (cx_ring Z_ring) <> r0) by discriminate.
  apply (C75_remainder _ C _ _ (complex_lawful _ _ _ (checked_lawful t)) (gauss_nice t) K fuel p d a v Hd Hv).
Qed.

(** Integer polynomials inside the Gaussian ones: computing with the imaginary parts all zero
    gives what the integer type gives, in either build. *)
Theorem C85_real : forall chk t, let A := int_num chk t in let B := complex_num A in let P := Forall2 (@emb t) in
  forall p p' q q' c c', P p p' -> P q q' -> emb c c' ->
  follows P (dense_new A p) (dense_new B p') /\
  dense_degree A p = dense_degree B p' /\
  follows (Forall2 (term_rel emb)) (dense_terms A p) (dense_terms B p') /\
  follows eq (dense_eq A p q) (dense_eq B p' q') /\
  follows P (dense_add A p q) (dense_add B p' q') /\
  follows P (dense_add_assign A p q) (dense_add_assign B p' q') /\
  follows P (dense_sub_assign A p q) (dense_sub_assign B p' q') /\
  follows P (dense_sub_assign_ref A p q) (dense_sub_assign_ref B p' q') /\
  follows P (dense_neg A p) (dense_neg B p') /\
  follows P (dense_mul A p q) (dense_mul B p' q') /\
  follows P (dense_mul_ref A p q) (dense_mul_ref B p' q') /\
  follows P (dense_scale A p c) (dense_scale B p' c') /\
  follows P (dense_scale_assign A p c) (dense_scale_assign B p' c') /\
  follows emb (dense_eval A p c) (dense_eval B p' c') /\
  (forall d, follows (Term_rel emb) (term_with_deg A p d) (term_with_deg B p' d)) /\
  (forall d, follows P (dense_add_term A p c d) (dense_add_term B p' c' d)) /\
  (forall fuel e, follows P (dense_pow A fuel p e) (dense_pow B fuel p' e)) /\
  (forall fuel left k, follows P (dense_shift A fuel left p k) (dense_shift B fuel left p' k)) /\
  (forall fuel left k, follows P (dense_shift_assign A fuel left p k) (dense_shift_assign B fuel left p' k)) /\
  (forall ts ts', Forall2 (term_rel emb) ts ts' -> follows P (dense_from_terms A ts) (dense_from_terms B ts')).
Proof.
  intros chk t A B P p p' q q' c c' Hp Hq Hc. pose proof (emb_sim chk t) as S.
  split; [fol @sim_dense_new|]. split; [eapply sim_degree; eassumption|]. split; [fol @sim_dense_terms|].
  split; [fol @sim_dense_eq|]. split; [fol @sim_dense_add|]. split; [fol @sim_dense_add_assign|].
  split; [fol @sim_dense_sub_assign|]. split; [fol @sim_dense_sub_assign_ref|]. split; [fol @sim_dense_neg|].
  split; [fol @sim_dense_mul|]. split; [fol @sim_dense_mul_ref|]. split; [fol @sim_dense_scale|].
  split; [fol @sim_dense_scale_assign|]. split; [fol @sim_dense_eval|].
  split; [intros; fol @sim_term_with_deg|]. split; [intros; fol @sim_dense_add_term|]. split; [intros; fol @sim_dense_pow|].
  split; [intros; fol @sim_dense_shift|]. split; [intros; fol @sim_dense_shift_assign|]. intros; fol @sim_dense_from_terms.
Qed.

(** Over a type without failing operations (wrapping integers, rationals, reals) sums, differences
    and evaluation always return. *)
Theorem C85_returns : forall T (O : num T) R den, lawful O R den -> total_ops O -> let C := complex_num O in forall a b x,
  (exists r, dense_add C a b = Ok r) /\ (exists r, dense_sub_assign C a b = Ok r) /\ (exists v, dense_eval C a x = Ok v) /\
  (vec_ok C a -> vec_ok C b -> product_fits C (cx_ring R) (dcoef _ (cx_den den) a) (dcoef _ (cx_den den) b) ->
   ~ (peq (dcoef _ (cx_den den) a) pzero /\ peq (dcoef _ (cx_den den) b) pzero) -> exists r, dense_mul C a b = Ok r).
Proof.
  intros T O R den L HT C a b x. pose proof (complex_lawful O R den L) as LC. pose proof (complex_total O HT) as TC. fold C in LC, TC.
  pose proof (total_fits C _ (cx_den den) TC) as F.
  split; [apply (proj1 (C06_dense_add_returns _ _ _ _ _ LC F a b)); auto|].
  split; [apply (proj1 (C07_dense_sub_returns _ _ _ _ _ LC F a b)); auto|].
  split; [apply C12_dense_eval_returns, TC|]. intros Ha Hb Hf Hn. apply (C08_dense_mul_returns _ _ _ _ LC TC a b Ha Hb Hf Hn).
Qed.

Local Open Scope Z_scope.
(** ((1+2i)x + 3) (x - i) = (1+2i)x^2 + (5-i)x - 3i, and its value at 1+i; x^2+1 has the roots i and -i;
    (1+2i)x^2 + (5-i)x - 3i divided by x - i. *)
Example C85_case :
  let t := I32 in let C := complex_num (int_num true t) in let z a b := (mk_int t a, mk_int t b) in
  let show r := match r with Ok l => Some (map (fun c => (ival (fst c), ival (snd c))) l) | _ => None end in
  show (dense_mul C [z 1 2; z 3 0] [z 1 0; z 0 (-1)]) = Some [(1, 2); (5, -1); (0, -3)]%Z /\
  show (v <- dense_eval C [z 1 2; z 5 (-1); z 0 (-3)] (z 1 1) ;; Ok [v]) = Some [(2, 3)]%Z /\
  show (v <- dense_eval C [z 1 0; z 0 0; z 1 0] (z 0 1) ;; w <- dense_eval C [z 1 0; z 0 0; z 1 0] (z 0 (-1)) ;; Ok [v; w]) = Some [(0, 0); (0, 0)]%Z /\
  show (qr <- dense_div_mod C 9%nat [z 1 2; z 5 (-1); z 0 (-3)] [z 1 0; z 0 (-1)] ;; Ok (fst qr)) = Some [(1, 2); (3, 0)]%Z /\
  vec_ok C [z 1 2; z 3 0].
Proof. vm_compute. repeat split; discriminate. Qed.

Print Assumptions C85_dense.
Print Assumptions C85_sparse.
Print Assumptions C85_value.
Print Assumptions C85_conj.
Print Assumptions C85_div_mod.
Print Assumptions C85_types.
Print Assumptions C85_degree.
Print Assumptions C85_remainder.
Print Assumptions C85_real.
Print Assumptions C85_returns.
