(** Property C100: arithmetic modulo a polynomial. *)

From Coq Require Import List NArith ZArith Lia Bool Ring Setoid Morphisms QArith Qcanon.
From Verif Require Import Base Num Spec Laws SpecFacts Terms Dense DenseFacts DenseMul DenseCalcInt DenseDiv P_Dense1 P_Dense2.
Local Close Scope Qc_scope.
Local Close Scope Q_scope.
Import ListNotations.
Local Open Scope nat_scope.

(** ** Specification *)

(** P and Q differ by a multiple of D. *)
Definition congruent {R : comring} (D P Q : poly R) : Prop := exists K, pfin K /\ peq (psub P Q) (pmul K D).

(** ** Lemmas *)
Section C.
Context {R : comring}.
Add Ring Rring_mod : (r_theory R).
Implicit Types A B D P Q K : poly R.

#[local] Instance peq_equiv : Equivalence (@peq R).
Proof. split; [exact peq_refl|exact peq_sym|exact peq_trans]. Qed.
#[local] Instance padd_proper : Proper (peq ==> peq ==> peq) (@padd R).
Proof. intros a a' Ha b b' Hb d. unfold padd. rewrite (Ha d), (Hb d). reflexivity. Qed.
#[local] Instance psub_proper : Proper (peq ==> peq ==> peq) (@psub R).
Proof. intros a a' Ha b b' Hb d. unfold psub. rewrite (Ha d), (Hb d). reflexivity. Qed.
#[local] Instance popp_proper : Proper (peq ==> peq) (@popp R).
Proof. intros a a' Ha d. unfold popp. rewrite (Ha d). reflexivity. Qed.
#[local] Instance pmul_proper : Proper (peq ==> peq ==> peq) (@pmul R).
Proof. intros a a' Ha b b' Hb. apply pmul_ext; assumption. Qed.

Lemma poly_ring : ring_theory (@pzero R) pone padd pmul psub popp peq.
Proof.
  split; intros; try (intros e; unfold padd, psub, popp, pzero; ring).
  - apply pmul_pone_l.
  - apply pmul_comm.
  - apply pmul_assoc.
  - apply pmul_padd_l.
Qed.
Lemma poly_ring_ext : ring_eq_ext (@padd R) pmul popp peq.
Proof. split; [exact padd_proper|exact pmul_proper|exact popp_proper]. Qed.
Add Ring Pring_mod : poly_ring (setoid peq_equiv poly_ring_ext).

Lemma pfin_add A B : pfin A -> pfin B -> pfin (padd A B).
Proof. intros [n Hn] [m Hm]. exists (n + m). intros i Hi. unfold padd. rewrite Hn, Hm by lia. ring. Qed.
Lemma pfin_opp A : pfin A -> pfin (popp A).
Proof. intros [n Hn]. exists n. intros i Hi. unfold popp. rewrite Hn by lia. ring. Qed.
Lemma pfin_mul A B : pfin A -> pfin B -> pfin (pmul A B).
Proof. intros [n Hn] [m Hm]. exists (n + m). intros i Hi. apply (pmul_support A B n m Hn Hm). lia. Qed.
Lemma pfin_zero : pfin (@pzero R).
Proof. exists 0. reflexivity. Qed.
Lemma pfin_one : pfin (@pone R).
Proof. exists 1. intros [|i] Hi; [lia|reflexivity]. Qed.
Lemma pfin_pow A n : pfin A -> pfin (ppow A n).
Proof. intros H. induction n as [|n IH]; [apply pfin_one|]. apply pfin_mul; assumption. Qed.

Lemma cong_refl D A : congruent D A A.
Proof. exists pzero. split; [apply pfin_zero|]. ring. Qed.
Lemma cong_eq D A B : peq A B -> congruent D A B.
Proof. intros E. exists pzero. split; [apply pfin_zero|]. rewrite E. ring. Qed.
Lemma cong_sym D A B : congruent D A B -> congruent D B A.
Proof. intros (K & F & E). exists (popp K). split; [apply pfin_opp, F|]. transitivity (popp (psub A B)); [ring|]. rewrite E. ring. Qed.
Lemma cong_trans D A B P : congruent D A B -> congruent D B P -> congruent D A P.
Proof.
  intros (K & F & E) (K' & F' & E'). exists (padd K K'). split; [apply pfin_add; assumption|].
  transitivity (padd (psub A B) (psub B P)); [ring|]. rewrite E, E'. ring.
Qed.
Lemma cong_add D A A' B B' : congruent D A A' -> congruent D B B' -> congruent D (padd A B) (padd A' B').
Proof.
  intros (K & F & E) (K' & F' & E'). exists (padd K K'). split; [apply pfin_add; assumption|].
  transitivity (padd (psub A A') (psub B B')); [ring|]. rewrite E, E'. ring.
Qed.
Lemma cong_opp D A A' : congruent D A A' -> congruent D (popp A) (popp A').
Proof. intros (K & F & E). exists (popp K). split; [apply pfin_opp, F|]. transitivity (popp (psub A A')); [ring|]. rewrite E. ring. Qed.
Lemma cong_sub D A A' B B' : congruent D A A' -> congruent D B B' -> congruent D (psub A B) (psub A' B').
Proof.
  intros H1 H2. eapply cong_trans; [apply cong_eq; instantiate (1 := padd A (popp B)); ring|].
  eapply cong_trans; [apply cong_add; [exact H1|apply cong_opp, H2]|]. apply cong_eq. ring.
Qed.
Lemma cong_mul D A A' B B' : pfin A -> pfin B' -> congruent D A A' -> congruent D B B' -> congruent D (pmul A B) (pmul A' B').
Proof.
  intros FA FB (K & F & E) (K' & F' & E'). exists (padd (pmul A K') (pmul K B')). split; [apply pfin_add; apply pfin_mul; assumption|].
  transitivity (padd (pmul A (psub B B')) (pmul (psub A A') B')); [ring|]. rewrite E, E'. ring.
Qed.
Lemma cong_pow D A A' n : pfin A -> pfin A' -> congruent D A A' -> congruent D (ppow A n) (ppow A' n).
Proof. intros F F' H. induction n as [|n IH]; [apply cong_refl|]. cbn [ppow]. apply cong_mul; auto. apply pfin_pow, F'. Qed.

Lemma euclid_cong P D K Q : pfin K -> euclid P D K Q -> congruent D P Q.
Proof. intros F [E _]. exists K. split; [exact F|]. rewrite E. ring. Qed.

(** Over a domain congruent polynomials of smaller degree are equal. *)
Lemma cong_small D A B k : domain R -> is_degree D (Some k) -> (forall e, k <= e -> A e = r0) -> (forall e, k <= e -> B e = r0) ->
  congruent D A B -> peq A B.
Proof.
  intros HD HK HA HB (K & F & E).
  destruct (euclid_unique R HD A D K B pzero A F pfin_zero) as [_ H]; [| |symmetry; exact H].
  - split; [|exists k; auto]. transitivity (padd (psub A B) B); [ring|]. rewrite E. reflexivity.
  - split; [|exists k; auto]. ring.
Qed.
End C.

Section D.
Context {T} (O : num T) (R : comring) (den : T -> car R) (L : lawful O R den) (HN : nice_div O).
Notation P := (dcoef R den).

Lemma rem_facts fuel p d r : dense_rem_assign O fuel p d = Ok r ->
  congruent (P d) (P p) (P r) /\ exists k, is_degree (P d) (Some k) /\ forall e, k <= e -> P r e = r0.
Proof.
  intros H. destruct (C20_dense_rem_assign T O R den L HN fuel p d r H) as (q & F & E). split; [eapply euclid_cong; eassumption|]. apply E.
Qed.

Lemma rem_eq_iff (HD : domain R) fuel fuel' p p' d r r' :
  dense_rem_assign O fuel p d = Ok r -> dense_rem_assign O fuel' p' d = Ok r' ->
  (dense_eq O r r' = Ok true <-> congruent (P d) (P p) (P p')).
Proof.
  intros H H'. destruct (rem_facts _ _ _ _ H) as (C1 & k & K1 & S1). destruct (rem_facts _ _ _ _ H') as (C2 & k' & K2 & S2).
  pose proof (is_degree_unique _ _ _ K1 K2) as Ek. injection Ek as <-.
  destruct (C05_dense_eq T O R den L r r') as (b & Eb & Ib). rewrite Eb. split.
  - intros E. injection E as ->. eapply cong_trans; [exact C1|]. eapply cong_trans; [apply cong_eq, Ib; reflexivity|]. apply cong_sym, C2.
  - intros C. f_equal. apply Ib. apply (cong_small (P d) _ _ k HD K1 S1 S2).
    eapply cong_trans; [apply cong_sym, C1|]. eapply cong_trans; [exact C|exact C2].
Qed.
Lemma eq_true a b : peq (P a) (P b) -> dense_eq O a b = Ok true.
Proof. intros H. destruct (C05_dense_eq T O R den L a b) as (c & Ec & Ic). rewrite Ec. f_equal. apply Ic, H. Qed.
End D.

(** ** C100 *)

(** Two remainders are equal exactly if the difference of the dividends is a multiple of the
    divisor; a remainder is its own remainder. *)
Theorem C100_congruence : forall T (O : num T) R den, lawful O R den -> nice_div O -> domain R ->
  forall fuel p d r, dense_rem_assign O fuel p d = Ok r ->
  (forall fuel' p' r', dense_rem_assign O fuel' p' d = Ok r' ->
     (dense_eq O r r' = Ok true <-> exists K, pfin K /\ peq (psub (dcoef R den p) (dcoef R den p')) (pmul K (dcoef R den d)))) /\
  (forall fuel' r', dense_rem_assign O fuel' r d = Ok r' -> dense_eq O r r' = Ok true).
Proof.
  intros T O R den L HN HD fuel p d r H. split.
  - intros fuel' p' r' H'. apply (rem_eq_iff O R den L HN HD fuel fuel' p p' d r r' H H').
  - intros fuel' r' H'. apply (rem_eq_iff O R den L HN HD _ _ _ _ d r r' H H'). apply (rem_facts O R den L HN _ _ _ _ H).
Qed.

(** Sums, differences and negatives may be reduced before or after; the sum or difference of
    two remainders needs no further reduction. *)
Theorem C100_linear : forall T (O : num T) R den, lawful O R den -> nice_div O -> domain R ->
  forall fuel p q d r s, dense_rem_assign O fuel p d = Ok r -> dense_rem_assign O fuel q d = Ok s ->
  (forall a b c, dense_add O p q = Ok a -> dense_rem_assign O fuel a d = Ok b -> dense_add O r s = Ok c -> dense_eq O b c = Ok true) /\
  (forall a b c, dense_sub O p q = Ok a -> dense_rem_assign O fuel a d = Ok b -> dense_sub O r s = Ok c -> dense_eq O b c = Ok true) /\
  (forall a b c, dense_neg O p = Ok a -> dense_rem_assign O fuel a d = Ok b -> dense_neg O r = Ok c -> dense_eq O b c = Ok true).
Proof.
  intros T O R den L HN HD fuel p q d r s Hr Hs.
  destruct (rem_facts O R den L HN _ _ _ _ Hr) as (C1 & k & K1 & S1). destruct (rem_facts O R den L HN _ _ _ _ Hs) as (C2 & k' & K2 & S2).
  pose proof (is_degree_unique _ _ _ K1 K2) as Ek. injection Ek as <-.
  assert (GEN : forall a b c X Y, dense_rem_assign O fuel a d = Ok b -> peq (dcoef R den a) X -> peq (dcoef R den c) Y ->
    congruent (dcoef R den d) X Y -> (forall e, k <= e -> Y e = r0) -> dense_eq O b c = Ok true).
  { intros a b c X Y Hb Ea Ec C SY. destruct (rem_facts O R den L HN _ _ _ _ Hb) as (C3 & k3 & K3 & S3).
    pose proof (is_degree_unique _ _ _ K1 K3) as Ek. injection Ek as <-. apply (eq_true O R den L). apply (cong_small (dcoef R den d) _ _ k HD K1 S3).
    - intros e He. rewrite (Ec e). apply SY, He.
    - eapply cong_trans; [apply cong_sym, C3|]. eapply cong_trans; [apply cong_eq, Ea|]. eapply cong_trans; [exact C|]. apply cong_eq, peq_sym, Ec. }
  split; [|split]; intros a b c Ha Hb Hc.
  - eapply (GEN a b c _ _ Hb); [apply (C06_dense_add T O R den L p q a); auto|apply (C06_dense_add T O R den L r s c); auto|apply cong_add; assumption|].
    intros e He. unfold padd. rewrite S1, S2 by exact He. apply radd_0_l.
  - eapply (GEN a b c _ _ Hb); [apply (C07_dense_sub T O R den L p q a); auto|apply (C07_dense_sub T O R den L r s c); auto|apply cong_sub; assumption|].
    intros e He. unfold psub. rewrite S1, S2 by exact He. apply rsub_diag.
  - eapply (GEN a b c _ _ Hb); [apply (C07_dense_neg T O R den L p a); auto|apply (C07_dense_neg T O R den L r c); auto|apply cong_opp; assumption|].
    intros e He. unfold popp. rewrite S1 by exact He. apply ropp_0.
Qed.

(** Products and powers may be reduced before and after. *)
Theorem C100_product : forall T (O : num T) R den, lawful O R den -> nice_div O -> domain R -> (1 <= n_max_len O)%N ->
  forall fuel p q d r s, vec_ok O p -> vec_ok O q -> vec_ok O r -> vec_ok O s ->
  dense_rem_assign O fuel p d = Ok r -> dense_rem_assign O fuel q d = Ok s ->
  (forall a b c e, dense_mul O p q = Ok a -> dense_rem_assign O fuel a d = Ok b ->
     dense_mul O r s = Ok c -> dense_rem_assign O fuel c d = Ok e -> dense_eq O b e = Ok true) /\
  (forall n f a b c e, dense_pow O f p n = Ok a -> dense_rem_assign O fuel a d = Ok b ->
     dense_pow O f r n = Ok c -> dense_rem_assign O fuel c d = Ok e -> dense_eq O b e = Ok true).
Proof.
  intros T O R den L HN HD HM fuel p q d r s Vp Vq Vr Vs Hr Hs.
  destruct (rem_facts O R den L HN _ _ _ _ Hr) as (C1 & _). destruct (rem_facts O R den L HN _ _ _ _ Hs) as (C2 & _). split.
  - intros a b c e Ha Hb Hc He. apply (rem_eq_iff O R den L HN HD _ _ _ _ d b e Hb He).
    eapply cong_trans; [apply cong_eq, (C08_dense_mul T O R den L p q a Vp Vq); auto|].
    eapply cong_trans; [|apply cong_eq, peq_sym, (C08_dense_mul T O R den L r s c Vr Vs); auto].
    apply cong_mul; [apply dcoef_pfin..|exact C1|exact C2].
  - intros n f a b c e Ha Hb Hc He. apply (rem_eq_iff O R den L HN HD _ _ _ _ d b e Hb He).
    eapply cong_trans; [apply cong_eq, (C10_dense_pow T O R den L HM f p n a Vp Ha)|].
    eapply cong_trans; [|apply cong_eq, peq_sym, (C10_dense_pow T O R den L HM f r n c Vr Hc)].
    apply cong_pow; [apply dcoef_pfin..|exact C1].
Qed.

(** Multiples of the divisor leave no remainder; and at every zero of the divisor the
    remainder has the value of the dividend. *)
Theorem C100_multiple_value : forall T (O : num T) R den, lawful O R den -> nice_div O -> domain R ->
  forall fuel p d r, dense_rem_assign O fuel p d = Ok r ->
  (forall q, vec_ok O q -> vec_ok O d -> dense_mul O q d = Ok p -> dense_is_zero O r = true) /\
  (forall x y v w, dense_eval O d x = Ok y -> is_zero O y = true -> dense_eval O p x = Ok v -> dense_eval O r x = Ok w -> den v = den w).
Proof.
  intros T O R den L HN HD fuel p d r H. destruct (rem_facts O R den L HN _ _ _ _ H) as (C1 & k & K1 & S1). split.
  - intros q Vq Vd Hm. pose proof (C08_dense_mul T O R den L q d p Vq Vd (or_introl Hm)) as E.
    apply (proj2 (C02_dense_is_zero T O R den L r)). intros e. destruct (Nat.le_gt_cases k e) as [G|G]; [apply S1, G|].
    apply (cong_small (dcoef R den d) (dcoef R den r) pzero k HD K1 S1); [reflexivity|].
    eapply cong_trans; [apply cong_sym, C1|]. exists (dcoef R den q). split; [apply dcoef_pfin|]. intros i. rewrite <- (E i). unfold psub, pzero. apply rsub_0_r.
  - intros x y v w Hy Hz Hv Hw. destruct C1 as (K & F & E).
    pose proof (C12_dense_eval T O R den L _ _ _ Hv) as Vv. pose proof (C12_dense_eval T O R den L _ _ _ Hw) as Vw. pose proof (C12_dense_eval T O R den L _ _ _ Hy) as Vy.
    assert (Z : den y = r0) by (apply (is_zero_den O R den L), Hz).
    assert (VK : exists z, is_value K (den x) z).
    { destruct F as [n Hn]. eexists. exists n. split; [exact Hn|reflexivity]. }
    destruct VK as [z Vz]. pose proof (is_value_pmul _ _ _ _ _ Vz Vy) as M.
    pose proof (is_value_ext _ _ _ _ (peq_sym _ _ E) M) as M'. pose proof (is_value_fun _ _ _ _ (is_value_psub _ _ _ _ _ Vv Vw) M') as G.
    rewrite Z, rmul_0_r in G. apply rsub_eq_0 in G. exact G.
Qed.

(** Over a field every remainder above is returned, given a divisor that is not zero. *)
Theorem C100_field : forall T (O : num T) R den, lawful O R den -> total_ops O -> exact_div O R den -> forall fuel p d,
  length p <= fuel ->
  nice_div O /\ (dense_is_zero O d = false <-> exists r, dense_rem_assign O fuel p d = Ok r).
Proof.
  intros T O R den L HT X fuel p d Hf. split; [apply (exact_nice O R den L X)|]. split.
  - intros Z. apply (C20_dense_rem_assign_field T O R den L HT X); [|exact Hf].
    intros E. apply (C02_dense_is_zero T O R den L) in E. congruence.
  - intros (r & H). destruct (dense_is_zero O d) eqn:Z; [|reflexivity]. apply (C02_dense_is_zero T O R den L) in Z.
    rewrite (dense_rem_assign_zero_divisor O R den L fuel p d Z) in H. discriminate.
Qed.

(** ** Euclid's algorithm, written by a caller with %= and is_zero *)

(** Caller code, not in /repo: [while !b.is_zero() { a %= &b; swap(a, b) }; a]. [fuel] bounds
    the loop inside %= and [steps] the caller's loop. *)
Fixpoint caller_gcd {T} (O : num T) (fuel steps : nat) (a b : list T) : res (list T) :=
  if dense_is_zero O b then Ok a
  else match steps with
       | 0 => Fuel
       | S n => r <- dense_rem_assign O fuel a b ;; caller_gcd O fuel n b r
       end.

(** [A] is a multiple of [D]. *)
Definition divides {R : comring} (D A : poly R) : Prop := exists K, pfin K /\ peq A (pmul K D).

Section G.
Context {R : comring}.
Add Ring Rring_gcd : (r_theory R).
Existing Instances peq_equiv padd_proper psub_proper popp_proper pmul_proper.
Add Ring Pring_gcd : (@poly_ring R) (setoid (@peq_equiv R) (@poly_ring_ext R)).

Lemma divides_refl (A : poly R) : divides A A.
Proof. exists pone. split; [apply pfin_one|]. ring. Qed.
Lemma divides_zero (A B : poly R) : peq B pzero -> divides A B.
Proof. intros E. exists pzero. split; [apply pfin_zero|]. rewrite E. ring. Qed.
Lemma divides_cong (D B A P : poly R) : congruent B A P -> divides D B -> (divides D A <-> divides D P).
Proof.
  intros (K & F & E) (M & FM & EM). split; intros (J & FJ & EJ).
  - exists (psub J (pmul K M)). split.
    + assert (H : pfin (padd J (popp (pmul K M)))) by (apply pfin_add, pfin_opp, pfin_mul; assumption).
      destruct H as [n Hn]. exists n. intros i Hi. rewrite <- (Hn i Hi). unfold psub, padd, popp. ring.
    + transitivity (psub A (psub A P)); [ring|]. rewrite E, EJ, EM. ring.
  - exists (padd J (pmul K M)). split; [apply pfin_add, pfin_mul; assumption|].
    transitivity (padd (psub A P) P); [ring|]. rewrite E, EJ, EM. ring.
Qed.
End G.

Section H.
Context {T} (O : num T) (R : comring) (den : T -> car R) (L : lawful O R den).
Notation P := (dcoef R den).

Lemma rem_assign_loop_length rhs b m (Hrhs : first_term O rhs = TTerm b m) fuel : forall rem c sd s rem',
  first_term O rem = TTerm c sd -> rem_assign_loop O fuel rhs b m s sd rem = Ok rem' -> length rem' = length rem.
Proof.
  induction fuel as [|fuel IH]; intros rem c sd s rem' Hf H; [discriminate|].
  cbn [rem_assign_loop] in H. destruct (N.leb_spec m sd) as [Hm|Hm]; [|inv_ok; reflexivity].
  inv_ok. pose proof (vec_sub_spec O R den L _ _ _ _ _ _ _ _ Hf Hrhs Hm E) as (_ & EL & _).
  destruct (first_term O v) as [|c' sd'] eqn:Ef.
  - inv_ok. exact EL.
  - inv_ok. rewrite <- EL. eapply IH; eassumption.
Qed.
Lemma rem_assign_length fuel p d r : dense_rem_assign O fuel p d = Ok r -> length r = length p.
Proof.
  unfold dense_rem_assign. destruct (first_term O d) as [|b m] eqn:Hr; [discriminate|].
  destruct (first_term O p) as [|c sd] eqn:Hp; [intros H; inv_ok; reflexivity|].
  destruct (N.ltb_spec sd m); intros H'.
  - inv_ok. reflexivity.
  - destruct (div O c b) as [s| |] eqn:E; cbn [bind] in H'; try discriminate. exact (rem_assign_loop_length d b m Hr fuel p c sd s r Hp H').
Qed.

Lemma gcd_correct (HN : nice_div O) fuel : forall steps a b g, caller_gcd O fuel steps a b = Ok g ->
  forall D, divides D (P g) <-> (divides D (P a) /\ divides D (P b)).
Proof.
  induction steps as [|n IH]; intros a b g H D; cbn [caller_gcd] in H; destruct (dense_is_zero O b) eqn:Z; inv_ok; try discriminate.
  - apply (C02_dense_is_zero T O R den L) in Z. split; [intros A; split; [exact A|apply divides_zero, Z]|tauto].
  - apply (C02_dense_is_zero T O R den L) in Z. split; [intros A; split; [exact A|apply divides_zero, Z]|tauto].
  - rewrite (IH _ _ _ H D). pose proof (proj1 (rem_facts O R den L HN _ _ _ _ E)) as C.
    split; intros [A B]; split; try assumption; apply (divides_cong D _ _ _ C); assumption.
Qed.

Lemma gcd_returns (HT : total_ops O) (X : exact_div O R den) fuel : forall steps a b, length a <= fuel -> length b <= fuel ->
  (forall e, steps <= e -> P b e = r0) -> exists g, caller_gcd O fuel steps a b = Ok g.
Proof.
  induction steps as [|n IH]; intros a b Ha Hb Hs; cbn [caller_gcd]; destruct (dense_is_zero O b) eqn:Z; try (eexists; reflexivity).
  - exfalso. assert (dense_is_zero O b = true) by (apply (C02_dense_is_zero T O R den L); intros e; apply Hs; lia). congruence.
  - destruct (C20_dense_rem_assign_field T O R den L HT X a b fuel) as [r Hr]; [|exact Ha|].
    { intros E. apply (C02_dense_is_zero T O R den L) in E. congruence. }
    rewrite Hr. cbn [bind]. apply IH; [exact Hb|rewrite (rem_assign_length _ _ _ _ Hr); exact Ha|].
    destruct (rem_facts O R den L (exact_nice O R den L X) _ _ _ _ Hr) as (_ & k & [K _] & S). intros e He. apply S.
    destruct (Nat.le_gt_cases k e) as [|G]; [assumption|]. exfalso. apply K, Hs. lia.
Qed.
End H.

(** What it returns is a greatest common divisor: the common divisors of the two operands are
    exactly the divisors of the result. Over a field it does return, within as many rounds as
    the second operand has coefficients. *)
Theorem C100_gcd : forall T (O : num T) R den, lawful O R den ->
  (nice_div O -> forall fuel steps a b g, caller_gcd O fuel steps a b = Ok g ->
     divides (dcoef R den g) (dcoef R den a) /\ divides (dcoef R den g) (dcoef R den b) /\
     forall D, divides D (dcoef R den a) -> divides D (dcoef R den b) -> divides D (dcoef R den g)) /\
  (total_ops O -> exact_div O R den -> forall fuel steps a b, length a <= fuel -> length b <= fuel -> length b <= steps ->
     exists g, caller_gcd O fuel steps a b = Ok g).
Proof.
  intros T O R den L. split.
  - intros HN fuel steps a b g H. pose proof (gcd_correct O R den L HN fuel steps a b g H) as G.
    destruct (proj1 (G (dcoef R den g)) (divides_refl _)) as [A B]. split; [exact A|]. split; [exact B|]. intros D DA DB. apply G. split; assumption.
  - intros HT X fuel steps a b Ha Hb Hs. apply (gcd_returns O R den L HT X); auto. intros e He. apply dcoef_overflow. lia.
Qed.

Definition qs (l : list Z) : list Qc := map (fun z => Q2Qc (inject_Z z)) l.

(** x^3 - 1 and 2x^4 + 5x^2 + 5x + 1 modulo x^2 + x - 2, the greatest common divisor 3x - 3 of the
    first and the last, and 2x^3 + 7 modulo x^2 + 3 over i32. *)
Example C100_case :
  lawful Qc_num Qc_ring (fun a => a) /\ nice_div Qc_num /\ domain Qc_ring /\
  rmap (map this) (dense_rem_assign Qc_num 9 (qs [1; 0; 0; -1]%Z) (qs [1; 1; -2]%Z)) = Ok (map inject_Z [0; 0; 3; -3]%Z) /\
  rmap (map this) (dense_rem_assign Qc_num 9 (qs [2; 0; 5; 5; 1]%Z) (qs [1; 1; -2]%Z)) = Ok (map inject_Z [0; 0; 0; -10; 23]%Z) /\
  rmap (map this) (caller_gcd Qc_num 9 9 (qs [1; 0; 0; -1]%Z) (qs [1; 1; -2]%Z)) = Ok (map inject_Z [0; 0; 3; -3]%Z) /\
  rmap (map ival) (dense_rem_assign (int_num true I32) 9 (map (mk_int I32) [2; 0; 0; 7]%Z) (map (mk_int I32) [1; 0; 3]%Z)) = Ok [0; 0; -6; 7]%Z.
Proof.
  split; [exact Qc_lawful|]. split; [apply (exact_nice _ _ _ Qc_lawful Qc_exact_div)|]. split; [exact Qc_domain|].
  repeat split; vm_compute; reflexivity.
Qed.

Print Assumptions C100_congruence. Print Assumptions C100_linear. Print Assumptions C100_product.
Print Assumptions C100_multiple_value. Print Assumptions C100_field. Print Assumptions C100_gcd.
