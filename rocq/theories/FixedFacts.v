(** Facts about Monomial, LinearBinomial, QuadraticTrinomial and ArrayPolynomial. *)

From Coq Require Import List NArith ZArith Lia Bool Ring Arith Sorted.
From Coq Require Import ZifyBool ZifyNat ZifyN.
From Verif Require Import Base Num Spec SpecFacts Laws Terms Dense DenseFacts DenseArith DenseCalc DenseShift DenseMut.
From Verif Require Import Sparse SparseFacts SparseArith SparseCalc Mono Bino Trino ArrPoly.
Import ListNotations.

Section Fixed.
Context {T : Type} (O : num T) (R : comring) (den : T -> car R) (L : lawful O R den).
Add Ring Rring6 : (r_theory R).
Notation dc := (dcoef R den).
Notation sc := (scoef R den).

(** The polynomials represented: [coefficient * x^deg] and arrays read highest degree first. *)
Definition mpoly (m : mono T) : poly R := pmono (den (mcoef m)) (N.to_nat (mdeg m)).
Definition bpoly (b : bino T) : poly R := dc (bino_list b).
Definition tpoly (b : trino T) : poly R := dc (trino_list b).

Lemma pmono_zero (c : car R) k : c = r0 -> peq (pmono c k) pzero.
Proof. intros -> d. unfold pmono. destruct (Nat.eqb d k); reflexivity. Qed.

Lemma pmono_at (c : car R) k : @pmono R c k k = c.
Proof. unfold pmono. rewrite Nat.eqb_refl. reflexivity. Qed.

Lemma pmono_off (c : car R) k d : d <> k -> @pmono R c k d = r0.
Proof. intros H. unfold pmono. destruct (Nat.eqb_spec d k); [lia|reflexivity]. Qed.

Lemma bpoly_at b d : bpoly b d = match d with 0 => den (bc1 b) | 1 => den (bc0 b) | _ => r0 end%nat.
Proof. unfold bpoly, bino_list. rewrite !dcoef_cons, dcoef_nil. destruct d as [|[|d]]; reflexivity. Qed.

Lemma tpoly_at b d : tpoly b d = match d with 0 => den (tc2 b) | 1 => den (tc1 b) | 2 => den (tc0 b) | _ => r0 end%nat.
Proof. unfold tpoly, trino_list. rewrite !dcoef_cons, dcoef_nil. destruct d as [|[|[|d]]]; reflexivity. Qed.

(** *** degree *)
Lemma mono_degree_spec m : is_degree (mpoly m) (dn (mono_degree O m)).
Proof.
  unfold mono_degree, mpoly. destruct (is_zero O (mcoef m)) eqn:E; simpl.
  - apply pmono_zero, (is_zero_den O R den L), E.
  - split.
    + rewrite pmono_at. apply (is_zero_false_den O R den L), E.
    + intros d Hd. apply pmono_off. lia.
Qed.

Lemma bino_degree_spec b : is_degree (bpoly b) (dn (bino_degree O b)).
Proof.
  unfold bino_degree. destruct (is_zero O (bc0 b)) eqn:E0; simpl; [destruct (is_zero O (bc1 b)) eqn:E1; simpl|].
  - intros d. rewrite bpoly_at. destruct d as [|[|d]]; try reflexivity; apply (is_zero_den O R den L); assumption.
  - split; [rewrite bpoly_at; apply (is_zero_false_den O R den L), E1|]. intros d Hd. rewrite bpoly_at.
    destruct d as [|[|d]]; [lia| |reflexivity]. apply (is_zero_den O R den L), E0.
  - split; [rewrite bpoly_at; apply (is_zero_false_den O R den L), E0|]. intros d Hd. rewrite bpoly_at.
    destruct d as [|[|d]]; [lia|change (Pos.to_nat 1) with 1%nat in Hd; lia|reflexivity].
Qed.

Lemma trino_degree_spec b : is_degree (tpoly b) (dn (trino_degree O b)).
Proof.
  unfold trino_degree. destruct (is_zero O (tc0 b)) eqn:E0; simpl;
    [destruct (is_zero O (tc1 b)) eqn:E1; simpl; [destruct (is_zero O (tc2 b)) eqn:E2; simpl|]|].
  - intros d. rewrite tpoly_at. destruct d as [|[|[|d]]]; try reflexivity; apply (is_zero_den O R den L); assumption.
  - split; [rewrite tpoly_at; apply (is_zero_false_den O R den L), E2|]. intros d Hd. rewrite tpoly_at.
    destruct d as [|[|[|d]]]; [lia| | |reflexivity]; apply (is_zero_den O R den L); assumption.
  - split; [rewrite tpoly_at; apply (is_zero_false_den O R den L), E1|]. intros d Hd. rewrite tpoly_at.
    change (Pos.to_nat 1) with 1%nat in Hd. destruct d as [|[|[|d]]]; [lia|lia| |reflexivity]. apply (is_zero_den O R den L), E0.
  - split; [rewrite tpoly_at; apply (is_zero_false_den O R den L), E0|]. intros d Hd. rewrite tpoly_at.
    change (Pos.to_nat 2) with 2%nat in Hd. destruct d as [|[|[|d]]]; [lia|lia|lia|reflexivity].
Qed.

Lemma degree_is_zero_iff (p : poly R) g : is_degree p (dn g) -> degree_is_zero g = true <-> peq p pzero.
Proof.
  intros H. destruct g as [|n]; simpl in *.
  - split; auto.
  - split; [discriminate|]. intros H0. destruct H as [H _]. exfalso. apply H, H0.
Qed.

Lemma mono_is_zero_iff m : mono_is_zero O m = true <-> den (mcoef m) = r0.
Proof.
  unfold mono_is_zero, mono_degree. destruct (is_zero O (mcoef m)) eqn:E; simpl.
  - split; [intros _; apply (is_zero_den O R den L), E|reflexivity].
  - split; [discriminate|]. intros H. exfalso. apply (is_zero_false_den O R den L _ E H).
Qed.

(** *** listings *)
Lemma mono_terms_spec m : is_listing (mpoly m) (dterms R den (mono_terms O m)).
Proof.
  unfold mono_terms, mpoly. destruct (is_zero O (mcoef m)) eqn:E.
  - apply is_listing_nil, pmono_zero, (is_zero_den O R den L), E.
  - apply is_listing_cons.
    + apply (is_zero_false_den O R den L), E.
    + apply pmono_at.
    + constructor.
    + apply is_listing_nil. intros d. cbn [snd]. unfold pzero. destruct (Nat.eqb_spec d (N.to_nat (mdeg m))) as [->|]; [reflexivity|].
      apply pmono_off. assumption.
Qed.

(** *** equality *)
Lemma mono_eq_spec a b : mono_eq O a b = true <-> peq (mpoly a) (mpoly b).
Proof.
  unfold mono_eq, mono_as_term, term_new, mpoly.
  destruct (is_zero O (mcoef a)) eqn:Ea, (is_zero O (mcoef b)) eqn:Eb; simpl.
  - apply (is_zero_den O R den L) in Ea, Eb. split; [|reflexivity]. intros _ d. rewrite Ea, Eb.
    unfold pmono. destruct (Nat.eqb d _), (Nat.eqb d _); reflexivity.
  - split; [discriminate|]. intros H. exfalso. apply (is_zero_false_den O R den L _ Eb).
    rewrite <- (pmono_at (den (mcoef b)) (N.to_nat (mdeg b))), <- H. apply pmono_zero, (is_zero_den O R den L), Ea.
  - split; [discriminate|]. intros H. exfalso. apply (is_zero_false_den O R den L _ Ea).
    rewrite <- (pmono_at (den (mcoef a)) (N.to_nat (mdeg a))), H. apply pmono_zero, (is_zero_den O R den L), Eb.
  - rewrite andb_true_iff, (lw_eqb _ _ _ L), N.eqb_eq. split.
    + intros [-> ->]. apply peq_refl.
    + intros H. pose proof (H (N.to_nat (mdeg a))) as H1. rewrite pmono_at in H1.
      destruct (Nat.eq_dec (N.to_nat (mdeg a)) (N.to_nat (mdeg b))) as [E|E].
      * rewrite E, pmono_at in H1. split; [exact H1|lia].
      * exfalso. rewrite pmono_off in H1 by exact E. apply (is_zero_false_den O R den L _ Ea H1).
Qed.

Lemma bino_eq_spec a b : bino_eq O a b = true <-> peq (bpoly a) (bpoly b).
Proof.
  unfold bino_eq. rewrite andb_true_iff, !(lw_eqb _ _ _ L). split.
  - intros [A B] d. rewrite !bpoly_at. destruct d as [|[|d]]; auto.
  - intros H. pose proof (H 0%nat) as H0. pose proof (H 1%nat) as H1. rewrite !bpoly_at in H0, H1. auto.
Qed.

Lemma trino_eq_spec a b : trino_eq O a b = true <-> peq (tpoly a) (tpoly b).
Proof.
  unfold trino_eq. rewrite !andb_true_iff, !(lw_eqb _ _ _ L). split.
  - intros (A & B & C) d. rewrite !tpoly_at. destruct d as [|[|[|d]]]; auto.
  - intros H. pose proof (H 0%nat) as H0. pose proof (H 1%nat) as H1. pose proof (H 2%nat) as H2.
    rewrite !tpoly_at in H0, H1, H2. auto.
Qed.

Lemma arr_eq_spec a : forall b, length a = length b -> arr_eq O a b = true <-> peq (dc a) (dc b).
Proof.
  induction a as [|x a IH]; intros [|y b] Hl; try discriminate; cbn [arr_eq].
  - split; [intros _; apply peq_refl|reflexivity].
  - injection Hl as Hl. rewrite andb_true_iff, (lw_eqb _ _ _ L), (IH b Hl). split.
    + intros [A B] d. rewrite !dcoef_cons, Hl. destruct (Nat.eqb d (length b)); [exact A|apply B].
    + intros H. split.
      * pose proof (H (length a)) as H0. rewrite !dcoef_cons, Hl, Nat.eqb_refl in H0. exact H0.
      * intros d. destruct (Nat.lt_ge_cases d (length a)) as [Hd|Hd].
        -- pose proof (H d) as H0. rewrite !dcoef_cons in H0. destruct (Nat.eqb_spec d (length a)), (Nat.eqb_spec d (length b)); try lia.
           exact H0.
        -- rewrite !dcoef_overflow by lia. reflexivity.
Qed.

(** *** scalar operations *)
Lemma mono_scale_spec m c r : mono_scale O m c = Ok r -> peq (mpoly r) (pscale (mpoly m) (den c)).
Proof.
  intros H. unfold mono_scale in H. inv_ok. intros d. unfold mpoly, pscale, pmono. simpl.
  destruct (Nat.eqb d _); [apply (lw_mul _ _ _ L _ _ _ E)|ring].
Qed.

Lemma bino_map_spec (f : T -> res T) (g : car R -> car R) b r : (forall x y, f x = Ok y -> den y = g (den x)) -> g r0 = r0 ->
  bino_map f b = Ok r -> forall d, bpoly r d = g (bpoly b d).
Proof.
  intros Hf Hg H d. unfold bino_map in H. inv_ok. rewrite !bpoly_at. simpl.
  destruct d as [|[|d]]; [apply (Hf _ _ E0)|apply (Hf _ _ E)|symmetry; exact Hg].
Qed.

Lemma trino_map_spec (f : T -> res T) (g : car R -> car R) b r : (forall x y, f x = Ok y -> den y = g (den x)) -> g r0 = r0 ->
  trino_map f b = Ok r -> forall d, tpoly r d = g (tpoly b d).
Proof.
  intros Hf Hg H d. unfold trino_map in H. inv_ok. rewrite !tpoly_at. simpl.
  destruct d as [|[|[|d]]]; [apply (Hf _ _ E1)|apply (Hf _ _ E0)|apply (Hf _ _ E)|symmetry; exact Hg].
Qed.

Lemma bino_map2_spec (f : T -> T -> res T) (g : car R -> car R -> car R) a b r :
  (forall x y z, f x y = Ok z -> den z = g (den x) (den y)) -> g r0 r0 = r0 ->
  bino_map2 f a b = Ok r -> forall d, bpoly r d = g (bpoly a d) (bpoly b d).
Proof.
  intros Hf Hg H d. unfold bino_map2 in H. inv_ok. rewrite !bpoly_at. simpl.
  destruct d as [|[|d]]; [apply (Hf _ _ _ E0)|apply (Hf _ _ _ E)|symmetry; exact Hg].
Qed.

Lemma trino_map2_spec (f : T -> T -> res T) (g : car R -> car R -> car R) a b r :
  (forall x y z, f x y = Ok z -> den z = g (den x) (den y)) -> g r0 r0 = r0 ->
  trino_map2 f a b = Ok r -> forall d, tpoly r d = g (tpoly a d) (tpoly b d).
Proof.
  intros Hf Hg H d. unfold trino_map2 in H. inv_ok. rewrite !tpoly_at. simpl.
  destruct d as [|[|[|d]]]; [apply (Hf _ _ _ E1)|apply (Hf _ _ _ E0)|apply (Hf _ _ _ E)|symmetry; exact Hg].
Qed.

Lemma bino_map_returns (f : T -> res T) (P : car R -> Prop) b : P r0 -> (forall x, (exists y, f x = Ok y) <-> P (den x)) ->
  (exists r, bino_map f b = Ok r) <-> forall d, P (bpoly b d).
Proof.
  intros P0 Hf. unfold bino_map. split.
  - intros (r & H) d. inv_ok. rewrite bpoly_at. destruct d as [|[|d]]; [apply Hf; eauto|apply Hf; eauto|exact P0].
  - intros H. pose proof (H 0%nat) as H0. pose proof (H 1%nat) as H1. rewrite bpoly_at in H0, H1.
    apply Hf in H0, H1. destruct H0 as (y0 & ->), H1 as (y1 & ->). simpl. eauto.
Qed.

Lemma trino_map_returns (f : T -> res T) (P : car R -> Prop) b : P r0 -> (forall x, (exists y, f x = Ok y) <-> P (den x)) ->
  (exists r, trino_map f b = Ok r) <-> forall d, P (tpoly b d).
Proof.
  intros P0 Hf. unfold trino_map. split.
  - intros (r & H) d. inv_ok. rewrite tpoly_at. destruct d as [|[|[|d]]]; [apply Hf; eauto|apply Hf; eauto|apply Hf; eauto|exact P0].
  - intros H. pose proof (H 0%nat) as H0. pose proof (H 1%nat) as H1. pose proof (H 2%nat) as H2. rewrite tpoly_at in H0, H1, H2.
    apply Hf in H0, H1, H2. destruct H0 as (y0 & ->), H1 as (y1 & ->), H2 as (y2 & ->). simpl. eauto.
Qed.

Lemma bino_map2_returns (f : T -> T -> res T) (P : car R -> car R -> Prop) a b : P r0 r0 ->
  (forall x y, (exists z, f x y = Ok z) <-> P (den x) (den y)) ->
  (exists r, bino_map2 f a b = Ok r) <-> forall d, P (bpoly a d) (bpoly b d).
Proof.
  intros P0 Hf. unfold bino_map2. split.
  - intros (r & H) d. inv_ok. rewrite !bpoly_at. destruct d as [|[|d]]; [apply Hf; eauto|apply Hf; eauto|exact P0].
  - intros H. pose proof (H 0%nat) as H0. pose proof (H 1%nat) as H1. rewrite !bpoly_at in H0, H1.
    apply Hf in H0, H1. destruct H0 as (y0 & ->), H1 as (y1 & ->). simpl. eauto.
Qed.

Lemma trino_map2_returns (f : T -> T -> res T) (P : car R -> car R -> Prop) a b : P r0 r0 ->
  (forall x y, (exists z, f x y = Ok z) <-> P (den x) (den y)) ->
  (exists r, trino_map2 f a b = Ok r) <-> forall d, P (tpoly a d) (tpoly b d).
Proof.
  intros P0 Hf. unfold trino_map2. split.
  - intros (r & H) d. inv_ok. rewrite !tpoly_at. destruct d as [|[|[|d]]]; [apply Hf; eauto|apply Hf; eauto|apply Hf; eauto|exact P0].
  - intros H. pose proof (H 0%nat) as H0. pose proof (H 1%nat) as H1. pose proof (H 2%nat) as H2. rewrite !tpoly_at in H0, H1, H2.
    apply Hf in H0, H1, H2. destruct H0 as (y0 & ->), H1 as (y1 & ->), H2 as (y2 & ->). simpl. eauto.
Qed.

(** *** monomial product and power *)
Lemma mono_mul_spec a b r : n_chk O = true \/ (mdeg a + mdeg b <= USIZE_MAX)%N \/ den (mcoef a) = r0 \/ den (mcoef b) = r0 ->
  mono_mul O a b = Ok r -> peq (mpoly r) (pmul (mpoly a) (mpoly b)).
Proof.
  intros Hd H. unfold mono_mul in H. inv_ok. unfold mpoly. cbn [mcoef mdeg].
  intros d. rewrite pmul_pmono_pmono, (lw_mul _ _ _ L _ _ _ E).
  destruct Hd as [Hd|[Hd|Hd]].
  - unfold uadd in E0. rewrite Hd in E0. destruct (N.leb_spec (mdeg a + mdeg b) USIZE_MAX); [|discriminate]. inv_ok.
    rewrite N2Nat.inj_add. reflexivity.
  - rewrite uadd_small in E0 by exact Hd. inv_ok. rewrite N2Nat.inj_add. reflexivity.
  - assert (Z : rmul (den (mcoef a)) (den (mcoef b)) = r0) by (destruct Hd as [->| ->]; ring).
    rewrite Z. unfold pmono. destruct (Nat.eqb d _), (Nat.eqb d _); reflexivity.
Qed.

Lemma mono_pow_spec m e r : (e < 2 ^ 32)%N -> n_chk O = true \/ (mdeg m * e <= USIZE_MAX)%N ->
  mono_pow O m e = Ok r -> peq (mpoly r) (ppow (mpoly m) (N.to_nat e)).
Proof.
  intros He Hd H. unfold mono_pow in H. inv_ok. unfold mpoly. cbn [mcoef mdeg].
  intros d. rewrite ppow_pmono, (lw_upow _ _ _ L _ _ _ He E).
  assert (E1 : v0 = (mdeg m * e)%N).
  { unfold umul in E0. destruct (N.leb_spec (mdeg m * e) USIZE_MAX); [inv_ok; reflexivity|].
    destruct Hd as [Hd|Hd]; [rewrite Hd in E0; discriminate|lia]. }
  rewrite E1, N2Nat.inj_mul. reflexivity.
Qed.

(** *** evaluation *)
Lemma mono_eval_value m x r : (mdeg m < 2 ^ 32)%N -> mono_eval O m x = Ok r -> is_value (mpoly m) (den x) (den r).
Proof.
  intros Hd H. unfold mono_eval in H. inv_ok. rewrite (lw_mul _ _ _ L _ _ _ H), (lw_upow _ _ _ L _ _ _ Hd E).
  apply is_value_pmono.
Qed.

Lemma bino_eval_value b x r : bino_eval O b x = Ok r -> is_value (bpoly b) (den x) (den r).
Proof.
  intros H. unfold bino_eval in H. inv_ok. rewrite (lw_add _ _ _ L _ _ _ H), (lw_mul _ _ _ L _ _ _ E).
  exists 2%nat. split.
  - intros i Hi. rewrite bpoly_at. destruct i as [|[|i]]; [lia|lia|reflexivity].
  - cbn [sumn]. rewrite !bpoly_at. simpl. ring.
Qed.

Lemma trino_eval_value b x r : trino_eval O b x = Ok r -> is_value (tpoly b) (den x) (den r).
Proof.
  intros H. unfold trino_eval in H. inv_ok.
  rewrite (lw_add _ _ _ L _ _ _ H), (lw_mul _ _ _ L _ _ _ E1), (lw_add _ _ _ L _ _ _ E0), (lw_mul _ _ _ L _ _ _ E).
  exists 3%nat. split.
  - intros i Hi. rewrite tpoly_at. destruct i as [|[|[|i]]]; [lia|lia|lia|reflexivity].
  - cbn [sumn]. rewrite !tpoly_at. simpl. ring.
Qed.

(** *** derivatives *)
Lemma mono_derivative_spec m r : (mdeg m <= USIZE_MAX)%N -> mono_derivative O m = Ok r -> peq (mpoly r) (pderiv (mpoly m)).
Proof.
  intros Hu H. unfold mono_derivative, mono_degree in H.
  assert (Z0 : forall k, peq (mpoly (mono_zero O)) (pderiv (pmono (r0 : car R) k))).
  { intros k d. unfold mpoly, mono_zero. simpl. rewrite pmono_zero by apply (lw_zero _ _ _ L).
    unfold pderiv. rewrite pmono_zero by reflexivity. unfold pzero. ring. }
  destruct (is_zero O (mcoef m)) eqn:Ez.
  - inv_ok. unfold mpoly at 2. rewrite (is_zero_den O R den L _ Ez). apply Z0.
  - destruct (mdeg m) as [|p] eqn:Ed.
    + inv_ok. intros d. unfold mpoly, mono_zero. simpl. rewrite pmono_zero by apply (lw_zero _ _ _ L).
      unfold pderiv. rewrite Ed, pmono_off by (simpl; lia). unfold pzero. ring.
    + unfold expect in H. destruct (of_exact O (N.pos p)) as [n|] eqn:En; [|discriminate]. cbn [bind] in H. inv_ok.
      rewrite usub_le in E0 by lia. inv_ok. intros d. unfold mpoly. cbn [mcoef mdeg]. rewrite Ed.
      rewrite (pderiv_pmono R _ _ d). destruct (N.to_nat (N.pos p)) as [|k] eqn:Ek; [lia|].
      replace (N.to_nat (N.pos p - 1)) with k by lia. cbv beta iota.
      unfold pmono. destruct (Nat.eqb d k); [|reflexivity].
      rewrite (lw_mul _ _ _ L _ _ _ E), (lw_exact _ _ _ L _ _ Hu En), Ek. ring.
Qed.

Lemma bino_derivative_spec b : peq (bpoly (bino_derivative O b)) (pderiv (bpoly b)).
Proof.
  intros d. unfold pderiv. rewrite !bpoly_at. unfold bino_derivative. simpl.
  destruct d as [|[|d]]; simpl; [ring|rewrite (lw_zero _ _ _ L); ring|ring].
Qed.

Lemma trino_derivative_spec b r : trino_derivative O b = Ok r -> peq (tpoly r) (pderiv (tpoly b)).
Proof.
  intros H. unfold trino_derivative, expect in H. destruct (of_exact O 2) as [two|] eqn:E2; [|discriminate]. cbn [bind] in H. inv_ok.
  apply (lw_exact _ _ _ L) in E2; [|unfold USIZE_MAX; lia]. intros d. unfold pderiv. rewrite !tpoly_at. simpl.
  destruct d as [|[|[|d]]]; simpl; [ring| |rewrite (lw_zero _ _ _ L); ring|ring].
  rewrite (lw_mul _ _ _ L _ _ _ E), E2. simpl. ring.
Qed.

Lemma arr_deriv_loop_spec l : forall deg out r, arr_deriv_loop O deg l out = Ok r -> length l = S (length out) ->
  den deg = of_nat (length l) ->
  length r = length out /\ forall d, (d < length out)%nat -> dc r d = rmul (of_nat (S d)) (dc l (S d)).
Proof.
  induction l as [|c l IH]; intros deg out r H Hl Hd; [discriminate|]. simpl in Hl.
  destruct out as [|o out]; cbn [arr_deriv_loop] in H; inv_ok; [split; [reflexivity|simpl; lia]|].
  simpl in Hl. assert (Hv : den v = of_nat (length l)).
  { rewrite (lw_sub _ _ _ L _ _ _ E), (lw_one _ _ _ L), Hd. cbn [length of_nat]. ring. }
  destruct (IH _ _ _ E1 ltac:(lia) Hv) as [H1 H2]. split; [simpl; lia|]. intros d Hlt. simpl in Hlt.
  rewrite !dcoef_cons, H1. destruct (Nat.eqb_spec d (length out)) as [->|].
  - replace (length l) with (S (length out)) in * by lia. rewrite Nat.eqb_refl.
    rewrite (lw_mul _ _ _ L _ _ _ E0), Hv. reflexivity.
  - destruct (Nat.eqb_spec (S d) (length l)); [lia|]. apply H2. lia.
Qed.

Lemma arr_derivative_spec a r : (len a <= USIZE_MAX)%N -> arr_derivative O a = Ok r ->
  length r = length a /\ peq (dc r) (pderiv (dc a)).
Proof.
  intros Hu H. unfold arr_derivative, expect in H. destruct (of_cont O (len a)) as [dg|] eqn:Ed; [|discriminate]. cbn [bind] in H.
  apply (lw_cont _ _ _ L) in Ed; [|exact Hu]. unfold len in Ed. rewrite Nat2N.id in Ed.
  destruct a as [|c a]; [cbn in H; inv_ok; split; [reflexivity|]; intros d; unfold pderiv; rewrite !dcoef_nil; ring|].
  cbn [length repeat] in H. inv_ok. destruct (arr_deriv_loop_spec _ _ _ _ E ltac:(simpl; rewrite repeat_length; lia) Ed) as [H1 H2].
  rewrite repeat_length in *. split; [simpl; lia|]. intros d. rewrite dcoef_cons, H1. unfold pderiv.
  destruct (Nat.lt_trichotomy d (length a)) as [Hd|[Hd|Hd]].
  - destruct (Nat.eqb_spec d (length a)); [lia|]. apply H2, Hd.
  - subst d. rewrite Nat.eqb_refl. rewrite dcoef_overflow by (simpl; lia). rewrite (lw_zero _ _ _ L). ring.
  - destruct (Nat.eqb_spec d (length a)); [lia|]. rewrite !dcoef_overflow by (simpl; lia). ring.
Qed.

(** *** integrals *)
(** [integral_of p q]: no constant; the coefficient of x^(d+1) is the type's quotient of
    the coefficient of x^d and d + 1, at most where that coefficient is zero possibly 0. *)
Definition integral_of (p q : poly R) : Prop :=
  q 0%nat = r0 /\
  forall d, (p d = r0 /\ q (S d) = r0) \/
            exists t n v, den t = p d /\ den n = of_nat (S d) /\ div O t n = Ok v /\ q (S d) = den v.

Lemma mono_integral_spec m r : (mdeg m < USIZE_MAX)%N -> mono_integral O m = Ok r ->
  swf r /\ integral_of (mpoly m) (sc r).
Proof.
  intros Hu H. unfold mono_integral, mono_degree in H. destruct (is_zero O (mcoef m)) eqn:Ez.
  - inv_ok. split; [apply swf_nil|]. split; [apply scoef_nil|]. intros d. left. split; [|apply scoef_nil].
    apply pmono_zero, (is_zero_den O R den L), Ez.
  - rewrite uadd_small in H by lia. cbn [bind] in H. unfold expect in H.
    destruct (of_exact O (mdeg m + 1)) as [n|] eqn:En; [|discriminate]. cbn [bind] in H. inv_ok.
    destruct (sparse_from_terms_spec O R den L [(v, (mdeg m + 1)%N)] r) as [W C]; [constructor; [simpl; lia|constructor]|exact H|].
    apply (lw_exact _ _ _ L) in En; [|lia].
    assert (S1 : forall d, sc r d = @pmono R (den v) (N.to_nat (mdeg m + 1)) d).
    { intros d. rewrite C. unfold dterms. cbn [map fst snd terms_coef]. unfold padd, pzero. ring. }
    split; [exact W|]. split; [rewrite S1; apply pmono_off; lia|].
    intros d. destruct (Nat.eq_dec d (N.to_nat (mdeg m))) as [->|Hn].
    + right. exists (mcoef m), n, v. split; [symmetry; apply pmono_at|]. split; [rewrite En; f_equal; lia|]. split; [exact E|].
      rewrite S1. replace (N.to_nat (mdeg m + 1)) with (S (N.to_nat (mdeg m))) by lia. apply pmono_at.
    + left. split; [apply pmono_off, Hn|]. rewrite S1. apply pmono_off. lia.
Qed.

Lemma dense_new_dc l r : dense_new O l = Ok r -> peq (dc r) (dc l).
Proof. rewrite dense_new_ok. intros H. inv_ok. apply (strip_coef O R den L). Qed.

Lemma div_one_exact_or c : exists t n v, den t = den c /\ den n = r1 /\ (div O t n = Ok v -> True) /\ den v = den c.
Proof. exists c, (one O), c. repeat split. apply (lw_one _ _ _ L). Qed.

(** The constant coefficient is not divided at all here (it is in the general code). *)
Definition integral_of' (p q : poly R) : Prop :=
  q 0%nat = r0 /\ q 1%nat = p 0%nat /\
  forall d, (p (S d) = r0 /\ q (S (S d)) = r0) \/
            exists t n v, den t = p (S d) /\ den n = of_nat (S (S d)) /\ div O t n = Ok v /\ q (S (S d)) = den v.

Lemma bino_integral_spec b r : bino_integral O b = Ok r -> integral_of' (bpoly b) (dc r).
Proof.
  intros H. unfold bino_integral, expect in H. destruct (of_cont O 2) as [two|] eqn:E2; [|discriminate]. cbn [bind] in H. inv_ok.
  apply (lw_cont _ _ _ L) in E2; [|unfold USIZE_MAX; lia]. apply dense_new_dc in H.
  assert (S1 : forall d, dc r d = match d with 0 => r0 | 1 => den (bc1 b) | 2 => den v | _ => r0 end%nat).
  { intros d. rewrite H, !dcoef_cons, dcoef_nil. destruct d as [|[|[|d]]]; simpl; auto. apply (lw_zero _ _ _ L). }
  split; [rewrite S1; reflexivity|]. split; [rewrite S1, bpoly_at; reflexivity|].
  intros d. rewrite S1, bpoly_at. destruct d as [|d].
  - right. exists (bc0 b), two, v. repeat split; auto.
  - left. auto.
Qed.

Lemma trino_integral_spec b r : trino_integral O b = Ok r -> integral_of' (tpoly b) (dc r).
Proof.
  intros H. unfold trino_integral, expect in H.
  destruct (of_exact O 3) as [three|] eqn:E3; [|discriminate]. cbn [bind] in H. inv_ok.
  destruct (of_exact O 2) as [two|] eqn:E2; [|discriminate]. cbn [bind] in H. inv_ok.
  apply (lw_exact _ _ _ L) in E2; [|unfold USIZE_MAX; lia]. apply (lw_exact _ _ _ L) in E3; [|unfold USIZE_MAX; lia].
  apply dense_new_dc in H.
  assert (S1 : forall d, dc r d = match d with 0 => r0 | 1 => den (tc2 b) | 2 => den v1 | 3 => den v | _ => r0 end%nat).
  { intros d. rewrite H, !dcoef_cons, dcoef_nil. destruct d as [|[|[|[|d]]]]; cbn [length Nat.eqb]; try reflexivity. apply (lw_zero _ _ _ L). }
  split; [rewrite S1; reflexivity|]. split; [rewrite S1, tpoly_at; reflexivity|].
  intros d. rewrite S1, tpoly_at. destruct d as [|[|d]].
  - right. exists (tc1 b), v0, v1. repeat split; auto.
  - right. exists (tc0 b), three, v. repeat split; auto.
  - left. auto.
Qed.

Lemma arr_integral_spec a r : (len a <= USIZE_MAX)%N -> arr_integral O a = Ok r -> integral_of (dc a) (dc r).
Proof.
  intros Hu H. unfold arr_integral, expect in H. destruct (of_cont O (len a)) as [dg|] eqn:Ed; [|discriminate]. cbn [bind] in H.
  apply (lw_cont _ _ _ L) in Ed; [|exact Hu]. unfold len in Ed. rewrite Nat2N.id in Ed. inv_ok.
  destruct (integ_loop_spec O R den L a dg v E Ed) as [H1 H2]. split; [rewrite dcoef_snoc; apply (lw_zero _ _ _ L)|].
  intros d. rewrite dcoef_snoc. destruct (Nat.lt_ge_cases d (length a)) as [Hd|Hd].
  - right. destruct (H2 d Hd) as (t & n & q & A & B & C & D). exists t, n, q. auto.
  - left. rewrite !dcoef_overflow by lia. auto.
Qed.

(** *** shifts *)
Lemma mono_shift_nonneg f (left : bool) m k r : (0 <= k)%Z ->
  (n_chk O = true \/ left = false \/ (mdeg m + Z.to_N k <= USIZE_MAX)%N) -> (mdeg m <= USIZE_MAX)%N ->
  mono_shift O (S f) left m k = Ok r -> (mdeg r <= USIZE_MAX)%N /\ peq (mpoly r) (pshift left k (mpoly m)).
Proof.
  intros Hk Hd Hu H. cbn [mono_shift] in H. destruct (Z.ltb_spec k 0); [lia|]. destruct left.
  - inv_ok. assert (Ev : v = (mdeg m + Z.to_N k)%N /\ (v <= USIZE_MAX)%N).
    { unfold uadd in E. destruct (N.leb_spec (mdeg m + Z.to_N k) USIZE_MAX); [inv_ok; auto|].
      destruct Hd as [Hd|[Hd|Hd]]; [rewrite Hd in E; discriminate|discriminate|lia]. }
    destruct Ev as [Ev Hv]. split; [exact Hv|]. subst v. intros d. unfold mpoly, pshift. cbn [mcoef mdeg].
    destruct (Z.leb_spec 0 k); [|lia]. unfold pshl. destruct (Nat.ltb_spec d (Z.to_nat k)).
    + apply pmono_off. lia.
    + unfold pmono. destruct (Nat.eqb_spec d (N.to_nat (mdeg m + Z.to_N k))), (Nat.eqb_spec (d - Z.to_nat k) (N.to_nat (mdeg m))); try lia; reflexivity.
  - assert (Sh : forall d, pshift false k (mpoly m) d = mpoly m (d + Z.to_nat k)).
    { intros d. unfold pshift. destruct (Z.leb_spec 0 (- k)).
      - assert (k = 0)%Z as -> by lia. simpl. unfold pshl. simpl. rewrite Nat.sub_0_r, Nat.add_0_r. reflexivity.
      - rewrite Z.opp_involutive. reflexivity. }
    destruct (N.ltb_spec (mdeg m) (Z.to_N k)).
    + inv_ok. split; [simpl; lia|]. intros d. rewrite Sh. unfold mpoly, mono_zero. cbn [mcoef mdeg].
      rewrite pmono_zero by apply (lw_zero _ _ _ L). symmetry. apply pmono_off. lia.
    + inv_ok. rewrite usub_le in E by lia. inv_ok. split; [simpl; lia|]. intros d. rewrite Sh. unfold mpoly. cbn [mcoef mdeg].
      unfold pmono. destruct (Nat.eqb_spec d (N.to_nat (mdeg m - Z.to_N k))), (Nat.eqb_spec (d + Z.to_nat k) (N.to_nat (mdeg m))); try lia; reflexivity.
Qed.

Lemma mono_shift_spec f (left : bool) m k r : i32_shift k -> (mdeg m <= USIZE_MAX)%N ->
  (n_chk O = true \/ (mdeg m + Z.to_N (if left then k else - k) <= USIZE_MAX)%N) ->
  mono_shift O (S (S f)) left m k = Ok r -> peq (mpoly r) (pshift left k (mpoly m)).
Proof.
  intros Hk Hu Hd H. destruct (Z.ltb_spec k 0) as [Hneg|Hpos].
  - cbn [mono_shift] in H. destruct (Z.ltb_spec k 0); [|lia]. unfold neg_i32 in H. unfold i32_shift in Hk.
    destruct (Z.eqb_spec k I32_MIN); [lia|]. cbn [bind] in H.
    apply (mono_shift_nonneg f (negb left) m (- k) r) in H; [|lia| |exact Hu].
    + destruct H as [_ H]. intros d. rewrite H. unfold pshift. destruct left; cbn [negb]; rewrite ?Z.opp_involutive; reflexivity.
    + destruct left; cbn [negb]; tauto.
  - apply (mono_shift_nonneg (S f) left m k r) in H; [tauto|exact Hpos| |exact Hu].
    destruct left; tauto.
Qed.

Lemma mono_shift_min_checked f (left : bool) m : n_chk O = true -> mono_shift O (S f) left m I32_MIN = Panic POverflow.
Proof. intros H. cbn [mono_shift]. unfold neg_i32. rewrite H. reflexivity. Qed.

Lemma mono_shift_min_unchecked f : n_chk O = false -> forall (left : bool) m, mono_shift O f left m I32_MIN = Fuel.
Proof.
  intros H. induction f as [|f IH]; intros left m; [reflexivity|]. cbn [mono_shift]. unfold neg_i32. rewrite H.
  change (I32_MIN <? 0)%Z with true. cbn iota. change (I32_MIN =? I32_MIN)%Z with true. cbn [bind]. apply IH.
Qed.

Lemma bino_shr_spec b k : peq (bpoly (bino_shr O b k)) (pshr (bpoly b) (N.to_nat k)).
Proof.
  intros d. unfold pshr. destruct k as [|[p|p|]]; unfold bino_shr; rewrite !bpoly_at; cbn [bc0 bc1].
  - simpl. rewrite Nat.add_0_r. reflexivity.
  - unfold bino_zero. cbn [bc0 bc1]. rewrite (lw_zero _ _ _ L).
    replace (d + N.to_nat (N.pos p~1))%nat with (S (S (d + N.to_nat (N.pos p~1) - 2))) by lia. destruct d as [|[|d]]; reflexivity.
  - unfold bino_zero. cbn [bc0 bc1]. rewrite (lw_zero _ _ _ L).
    replace (d + N.to_nat (N.pos p~0))%nat with (S (S (d + N.to_nat (N.pos p~0) - 2))) by lia. destruct d as [|[|d]]; reflexivity.
  - rewrite (lw_zero _ _ _ L). replace (d + N.to_nat 1)%nat with (S d) by lia. destruct d as [|[|d]]; reflexivity.
Qed.

Lemma trino_shr_spec b k : peq (tpoly (trino_shr O b k)) (pshr (tpoly b) (N.to_nat k)).
Proof.
  intros d. unfold pshr.
  assert (Big : (3 <= k)%N -> tpoly (trino_zero O) d = tpoly b (d + N.to_nat k)).
  { intros Hk. rewrite !tpoly_at. unfold trino_zero. cbn [tc0 tc1 tc2]. rewrite (lw_zero _ _ _ L).
    replace (d + N.to_nat k)%nat with (S (S (S (d + N.to_nat k - 3)))) by lia. destruct d as [|[|[|d]]]; reflexivity. }
  destruct k as [|[p|[p|p|]|]]; unfold trino_shr; try (apply Big; lia).
  - simpl. rewrite Nat.add_0_r. reflexivity.
  - rewrite !tpoly_at. cbn [tc0 tc1 tc2]. rewrite (lw_zero _ _ _ L). replace (d + N.to_nat 2)%nat with (S (S d)) by lia. destruct d as [|[|[|d]]]; reflexivity.
  - rewrite !tpoly_at. cbn [tc0 tc1 tc2]. rewrite (lw_zero _ _ _ L). replace (d + N.to_nat 1)%nat with (S d) by lia. destruct d as [|[|[|d]]]; reflexivity.
Qed.

(** *** term updates *)
Lemma bino_update_spec b d f r : (d <= 1)%N -> bino_update O b d f = Ok r ->
  exists x y, f x = Ok y /\ den x = bpoly b (N.to_nat d) /\
    forall e, bpoly r e = if Nat.eqb e (N.to_nat d) then den y else bpoly b e.
Proof.
  intros Hd H. unfold bino_update in H. rewrite usub_le in H by lia. cbn [bind] in H.
  assert (d = 0 \/ d = 1)%N as [->| ->] by lia; cbn in H; inv_ok.
  - exists (bc1 b), v. split; [exact E|]. split; [rewrite bpoly_at; reflexivity|]. intros e. rewrite !bpoly_at. destruct e as [|[|e]]; reflexivity.
  - exists (bc0 b), v. split; [exact E|]. split; [rewrite bpoly_at; reflexivity|]. intros e. rewrite !bpoly_at. destruct e as [|[|e]]; reflexivity.
Qed.

Lemma bino_update_returns b d f : (d <= 1)%N ->
  (exists r, bino_update O b d f = Ok r) <-> exists x y, f x = Ok y /\ den x = bpoly b (N.to_nat d).
Proof.
  intros Hd. split.
  - intros (r & H). destruct (bino_update_spec b d f r Hd H) as (x & y & A & B & _). eauto.
  - intros (x & y & A & B). unfold bino_update. rewrite usub_le by lia. cbn [bind]. rewrite bpoly_at in B.
    assert (d = 0 \/ d = 1)%N as [->| ->] by lia; simpl in B |- *; apply (lw_inj _ _ _ L) in B; subst x; rewrite A; simpl; eauto.
Qed.

Lemma trino_update_spec b d f r : (d <= 2)%N -> trino_update O b d f = Ok r ->
  exists x y, f x = Ok y /\ den x = tpoly b (N.to_nat d) /\
    forall e, tpoly r e = if Nat.eqb e (N.to_nat d) then den y else tpoly b e.
Proof.
  intros Hd H. unfold trino_update in H. rewrite usub_le in H by lia. cbn [bind] in H.
  assert (d = 0 \/ d = 1 \/ d = 2)%N as [->|[->| ->]] by lia; cbn in H; inv_ok.
  - exists (tc2 b), v. split; [exact E|]. split; [rewrite tpoly_at; reflexivity|]. intros e. rewrite !tpoly_at. destruct e as [|[|[|e]]]; reflexivity.
  - exists (tc1 b), v. split; [exact E|]. split; [rewrite tpoly_at; reflexivity|]. intros e. rewrite !tpoly_at. destruct e as [|[|[|e]]]; reflexivity.
  - exists (tc0 b), v. split; [exact E|]. split; [rewrite tpoly_at; reflexivity|]. intros e. rewrite !tpoly_at. destruct e as [|[|[|e]]]; reflexivity.
Qed.

Lemma trino_update_returns b d f : (d <= 2)%N ->
  (exists r, trino_update O b d f = Ok r) <-> exists x y, f x = Ok y /\ den x = tpoly b (N.to_nat d).
Proof.
  intros Hd. split.
  - intros (r & H). destruct (trino_update_spec b d f r Hd H) as (x & y & A & B & _). eauto.
  - intros (x & y & A & B). unfold trino_update. rewrite usub_le by lia. cbn [bind]. rewrite tpoly_at in B.
    assert (d = 0 \/ d = 1 \/ d = 2)%N as [->|[->| ->]] by lia; simpl in B |- *; apply (lw_inj _ _ _ L) in B; subst x; rewrite A; simpl; eauto.
Qed.

End Fixed.
