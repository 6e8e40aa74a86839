(** Dense evaluation, derivative and integral. *)

From Coq Require Import List NArith ZArith Lia Bool Ring Arith.
From Coq Require Import ZifyBool ZifyNat ZifyN.
From Verif Require Import Base Num Spec SpecFacts Laws Terms Dense DenseFacts DenseArith.
Import ListNotations.

Lemma split_last_spec {A} (l : list A) :
  match split_last l with
  | Some (x, i) => l = i ++ [x]
  | None => l = []
  end.
Proof.
  induction l as [|x l IH]; simpl; [reflexivity|].
  destruct (split_last l) as [[y i]|]; simpl; [rewrite IH; reflexivity|rewrite IH; reflexivity].
Qed.

Section DenseCalc.
Context {T : Type} (O : num T) (R : comring) (den : T -> car R) (L : lawful O R den).
Add Ring Rring_dk : (r_theory R).
Notation dc := (dcoef R den).

(** ** evaluation *)

Lemma dcoef_value l x : exists v, is_value (dc l) x v.
Proof.
  eexists. exists (length l). split; [|reflexivity]. intros i Hi. apply dcoef_overflow. lia.
Qed.

Lemma dcoef_snoc l c d : dc (l ++ [c]) d = match d with 0%nat => den c | S d' => dc l d' end.
Proof.
  rewrite dcoef_app. simpl length. destruct d as [|d]; simpl.
  - rewrite dcoef_cons. reflexivity.
  - rewrite Nat.sub_0_r. reflexivity.
Qed.

Lemma is_value_snoc l c x v : is_value (dc l) x v -> is_value (dc (l ++ [c])) x (radd (rmul v x) (den c)).
Proof.
  intros (n & Hn & ->). exists (S n). split.
  - intros [|i] Hi; [lia|]. rewrite dcoef_snoc. apply Hn. lia.
  - rewrite sumn_S_l. rewrite dcoef_snoc. cbn [rpow].
    rewrite <- sumn_mul_r.
    rewrite (sumn_ext _ (fun i => rmul (dc (l ++ [c]) (S i)) (rmul x (rpow x i)))).
    2:{ intros i _. rewrite dcoef_snoc. ring. }
    cbn [rpow]. ring.
Qed.

Lemma horner_value x first r v : horner O x first = Ok r -> is_value (dc first) (den x) v ->
  den r = rmul v (den x).
Proof.
  unfold horner. revert r v. induction first as [|c first IH] using rev_ind; intros r v H Hv.
  - simpl in H. inv_ok. rewrite (lw_zero _ _ _ L).
    rewrite (is_value_fun _ _ v r0 Hv); [ring|]. apply is_value_zero. intros d. apply dcoef_nil.
  - rewrite foldM_app in H. inv_ok. simpl in H. inv_ok.
    destruct (dcoef_value first (den x)) as (w & Hw).
    rewrite (is_value_fun _ _ v _ Hv (is_value_snoc _ c _ _ Hw)).
    rewrite (lw_mul _ _ _ L _ _ _ E0), (lw_add _ _ _ L _ _ _ E1), (IH _ _ E Hw). reflexivity.
Qed.

Lemma dense_eval_value l x r : dense_eval O l x = Ok r -> is_value (dc l) (den x) (den r).
Proof.
  unfold dense_eval. pose proof (split_last_spec l) as Hs. destruct (split_last l) as [[c first]|]; intros H.
  - subst l. destruct (is_zero O x) eqn:Ex.
    + inv_ok. destruct (dcoef_value (first ++ [r]) (den x)) as (v & Hv).
      pose proof Hv as Hv'. rewrite (is_zero_den O R den L _ Ex) in Hv'.
      rewrite (is_value_at_0 _ _ Hv'), dcoef_snoc in Hv. exact Hv.
    + inv_ok. destruct (dcoef_value first (den x)) as (w & Hw).
      rewrite (lw_add _ _ _ L _ _ _ H), (horner_value _ _ _ _ E Hw).
      apply is_value_snoc, Hw.
  - inv_ok. subst l. rewrite (lw_zero _ _ _ L). apply is_value_zero. intros d. apply dcoef_nil.
Qed.

Lemma dense_eval_total (HT : total_ops O) l x : exists r, dense_eval O l x = Ok r.
Proof.
  unfold dense_eval. destruct (split_last l) as [[c first]|]; [|eauto].
  destruct (is_zero O x); [eauto|].
  assert (forall l s, exists r, foldM (fun sum val => s <- add O sum val ;; mul O s x) s l = Ok r) as Hf.
  { clear - HT. induction l as [|c l IH]; intros s; simpl; [eauto|].
    destruct (to_add _ HT s c) as (a & ->). simpl. destruct (to_mul _ HT a x) as (m & ->). simpl. apply IH. }
  unfold horner. destruct (Hf first (zero O)) as (r & ->). simpl. apply (to_add _ HT).
Qed.

(** ** derivative *)

Lemma deriv_loop_coef l : forall deg r, deriv_loop O deg l = Ok r -> den deg = of_nat (S (length l)) ->
  length r = length l /\ forall d, dc r d = rmul (of_nat (S d)) (dc l d).
Proof.
  induction l as [|c l IH]; intros deg r H Hd; simpl in H; inv_ok.
  - split; [reflexivity|]. intros d. rewrite dcoef_nil. ring.
  - assert (Hv : den v = of_nat (S (length l))).
    { rewrite (lw_sub _ _ _ L _ _ _ E), (lw_one _ _ _ L), Hd. cbn [length of_nat]. ring. }
    destruct (IH _ _ E1 Hv) as [H1 H2]. split; [simpl; lia|]. intros d.
    rewrite !dcoef_cons, H1. destruct (Nat.eqb_spec d (length l)) as [->|].
    + rewrite (lw_mul _ _ _ L _ _ _ E0), Hv. ring.
    + apply H2.
Qed.

Lemma strip_len l : (len l - N.of_nat (first_nonzero_index O l))%N = len (strip O l).
Proof. rewrite first_nonzero_index_fnz. unfold len, strip. rewrite skipn_length. pose proof (fnz_le O l). lia. Qed.

Lemma vec_ok_usize l : vec_ok O l -> (len (strip O l) <= USIZE_MAX)%N.
Proof.
  unfold vec_ok. pose proof (lw_cap _ _ _ L). unfold strip, len. rewrite skipn_length. unfold USIZE_MAX. lia.
Qed.

Lemma dense_derivative_unfold l :
  dense_derivative O l =
    (deg <- expect (of_cont O (len (strip O l))) ;;
     match split_last (strip O l) with
     | Some (_, terms) => deriv_loop O deg terms
     | None => Ok dense_zero
     end).
Proof.
  unfold dense_derivative. rewrite usub_le.
  2:{ rewrite first_nonzero_index_fnz. pose proof (fnz_le O l). unfold len. lia. }
  cbn [bind]. rewrite strip_len. destruct (of_cont O (len (strip O l))); cbn [expect bind]; [|reflexivity].
  rewrite slice_from_strip. reflexivity.
Qed.

Lemma dense_derivative_coef l r : vec_ok O l -> dense_derivative O l = Ok r -> peq (dc r) (pderiv (dc l)).
Proof.
  intros Hv. rewrite dense_derivative_unfold. intros H. inv_ok.
  unfold expect in E. destruct (of_cont O (len (strip O l))) as [dg|] eqn:Ec; [|discriminate]. inv_ok.
  apply (lw_cont _ _ _ L) in Ec; [|apply vec_ok_usize, Hv].
  pose proof (split_last_spec (strip O l)) as Hs. intros d. unfold pderiv.
  rewrite <- (strip_coef O R den L l). destruct (split_last (strip O l)) as [[c terms]|].
  - rewrite Hs in Ec |- *. rewrite dcoef_snoc.
    apply deriv_loop_coef in H; [apply H|]. rewrite Ec. unfold len. rewrite Nnat.Nat2N.id, app_length.
    f_equal. simpl. lia.
  - inv_ok. rewrite Hs. unfold dense_zero. rewrite !dcoef_nil. ring.
Qed.

Lemma deriv_loop_total (HT : total_ops O) l : forall deg, exists r, deriv_loop O deg l = Ok r.
Proof.
  induction l as [|c l IH]; intros deg; simpl; [eauto|].
  destruct (to_sub _ HT deg (one O)) as (d' & ->). simpl. destruct (to_mul _ HT c d') as (p & ->). simpl.
  destruct (IH d') as (r & ->). simpl. eauto.
Qed.

Lemma dense_derivative_total (HT : total_ops O) l :
  of_cont O (len (strip O l)) <> None -> exists r, dense_derivative O l = Ok r.
Proof.
  intros H. rewrite dense_derivative_unfold. destruct (of_cont O (len (strip O l))) as [dg|]; [|congruence].
  cbn [expect bind]. destruct (split_last (strip O l)) as [[c terms]|]; [apply deriv_loop_total, HT|eauto].
Qed.

(** The derivative panics whenever the number of coefficients is not representable. *)
Lemma dense_derivative_expect l : of_cont O (len (strip O l)) = None -> dense_derivative O l = Panic PExpect.
Proof. intros H. rewrite dense_derivative_unfold, H. reflexivity. Qed.

Lemma dense_derivative_vec_ok l r : vec_ok O l -> dense_derivative O l = Ok r -> vec_ok O r /\ len r = (len (strip O l) - 1)%N.
Proof.
  unfold vec_ok. intros Hv. rewrite dense_derivative_unfold. intros H. inv_ok.
  pose proof (split_last_spec (strip O l)) as Hs.
  assert (Hl : (len (strip O l) <= len l)%N) by (unfold len, strip; rewrite skipn_length; lia).
  destruct (split_last (strip O l)) as [[c terms]|].
  - assert (length r = length terms) as Hr.
    { clear - H. revert v r H. induction terms as [|t terms IH]; intros v r H; simpl in H; inv_ok; simpl; eauto. }
    rewrite Hs in Hl |- *. unfold len in *. rewrite app_length in *. simpl in *. lia.
  - inv_ok. rewrite Hs. unfold len, dense_zero in *. simpl in *. lia.
Qed.

(** ** integral *)

Lemma integ_loop_spec l : forall deg r, integ_loop O deg l = Ok r -> den deg = of_nat (length l) ->
  length r = length l /\
  forall d, (d < length l)%nat -> exists t n q, div O t n = Ok q /\
    den t = dc l d /\ den n = of_nat (S d) /\ den q = dc r d.
Proof.
  induction l as [|c l IH]; intros deg r H Hd; simpl in H; inv_ok.
  - split; [reflexivity|]. simpl. intros; lia.
  - assert (Hv : den v0 = of_nat (length l)).
    { rewrite (lw_sub _ _ _ L _ _ _ E0), (lw_one _ _ _ L), Hd. cbn [length of_nat]. ring. }
    destruct (IH _ _ E1 Hv) as [H1 H2]. split; [simpl; lia|]. intros d Hlt. simpl in Hlt.
    rewrite !dcoef_cons, H1. destruct (Nat.eqb_spec d (length l)) as [->|].
    + exists c, deg, v. auto.
    + apply H2. lia.
Qed.

Lemma dense_integral_unfold l :
  dense_integral O l =
    (deg <- expect (of_cont O (len (strip O l))) ;;
     terms' <- integ_loop O deg (strip O l) ;;
     _ <- vec_grow (n_max_len O) terms' 1 ;; Ok (terms' ++ [zero O])).
Proof.
  unfold dense_integral. rewrite usub_le.
  2:{ rewrite first_nonzero_index_fnz. pose proof (fnz_le O l). unfold len. lia. }
  cbn [bind]. rewrite strip_len. destruct (of_cont O (len (strip O l))); cbn [expect bind]; [|reflexivity].
  rewrite slice_from_strip. reflexivity.
Qed.

(** Constant coefficient zero; coefficient [d + 1] is what the type's [/] gives on
    coefficient [d] and [d + 1]. *)
Lemma dense_integral_spec l r : vec_ok O l -> dense_integral O l = Ok r ->
  vec_ok O r /\ dc r 0 = r0 /\ (length r = S (length (strip O l)))%nat /\
  forall d, if Nat.ltb d (length (strip O l)) then
      exists t n q, div O t n = Ok q /\ den t = dc l d /\ den n = of_nat (S d) /\ den q = dc r (S d)
    else dc r (S d) = r0.
Proof.
  intros Hv. rewrite dense_integral_unfold. intros H. inv_ok.
  unfold expect in E. destruct (of_cont O (len (strip O l))) as [dg|] eqn:Ec; [|discriminate]. inv_ok.
  apply (lw_cont _ _ _ L) in Ec; [|apply vec_ok_usize, Hv].
  unfold len in Ec. rewrite Nnat.Nat2N.id in Ec. apply integ_loop_spec in E0; [|exact Ec].
  destruct E0 as [Hl Hd]. unfold vec_grow in E1.
  destruct (N.leb_spec (len v0 + 1) (n_max_len O)); [|discriminate].
  split; [|split; [|split]].
  - unfold vec_ok, len in *. rewrite app_length. simpl. lia.
  - rewrite dcoef_snoc. apply (lw_zero _ _ _ L).
  - rewrite app_length. simpl. lia.
  - intros d. rewrite dcoef_snoc. destruct (Nat.ltb_spec d (length (strip O l))) as [Hlt|Hge].
    + rewrite <- (strip_coef O R den L l). apply Hd, Hlt.
    + apply dcoef_overflow. lia.
Qed.

(** Integers of characteristic zero, exact division. *)
Definition char0 : Prop := forall n, @of_nat R (S n) <> r0.

Lemma dense_integral_exact (X : exact_div O R den) (C : char0) l r : vec_ok O l -> dense_integral O l = Ok r ->
  dc r 0 = r0 /\ peq (pderiv (dc r)) (dc l).
Proof.
  intros Hv H. apply dense_integral_spec in H; [|exact Hv]. destruct H as (_ & H0 & _ & Hd).
  split; [exact H0|]. intros d. unfold pderiv. specialize (Hd d).
  destruct (Nat.ltb_spec d (length (strip O l))) as [Hlt|Hge].
  - destruct Hd as (t & n & q & Hq & Ht & Hn & <-).
    assert (Hz : is_zero O n = false).
    { destruct (is_zero O n) eqn:E; [|reflexivity]. apply (is_zero_den O R den L) in E.
      rewrite Hn in E. destruct (C _ E). }
    destruct (X t n Hz) as (q' & Hq' & He). assert (q' = q) by congruence. subst q'.
    rewrite <- Ht, <- He, Hn. ring.
  - rewrite Hd, <- (strip_coef O R den L l), dcoef_overflow by lia. ring.
Qed.

Lemma integ_loop_total (HT : total_ops O) (X : exact_div O R den) (C : char0) l : forall deg, den deg = of_nat (length l) ->
  exists r, integ_loop O deg l = Ok r.
Proof.
  induction l as [|c l IH]; intros deg Hd; simpl; [eauto|].
  assert (Hz : is_zero O deg = false).
  { destruct (is_zero O deg) eqn:E; [|reflexivity]. apply (is_zero_den O R den L) in E.
    rewrite Hd in E. destruct (C _ E). }
  destruct (X c deg Hz) as (q & -> & _). simpl. destruct (to_sub _ HT deg (one O)) as (d' & Hd'). rewrite Hd'. simpl.
  destruct (IH d') as (r & ->).
  { rewrite (lw_sub _ _ _ L _ _ _ Hd'), (lw_one _ _ _ L), Hd. cbn [length of_nat]. ring. }
  simpl. eauto.
Qed.

Lemma dense_integral_total (HT : total_ops O) (X : exact_div O R den) (C : char0) l :
  (len l + 1 <= n_max_len O)%N ->
  of_cont O (len (strip O l)) <> None -> exists r, dense_integral O l = Ok r.
Proof.
  intros Hv H. rewrite dense_integral_unfold. destruct (of_cont O (len (strip O l))) as [dg|] eqn:Ec; [|congruence].
  cbn [expect bind].
  apply (lw_cont _ _ _ L) in Ec; [|apply vec_ok_usize; unfold vec_ok; lia].
  unfold len in Ec. rewrite Nnat.Nat2N.id in Ec.
  destruct (integ_loop_total HT X C (strip O l) dg Ec) as (r & Hr). rewrite Hr. cbn [bind].
  apply integ_loop_spec in Hr; [|exact Ec]. destruct Hr as [Hl _].
  unfold vec_grow. destruct (N.leb_spec (len r + 1) (n_max_len O)) as [|Hgt]; [simpl; eauto|].
  exfalso. unfold len, strip in *. rewrite skipn_length in Hl. lia.
Qed.

End DenseCalc.
