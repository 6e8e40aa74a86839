(** Dense division with remainder. *)

From Coq Require Import List NArith ZArith Lia Bool Ring Arith.
From Coq Require Import ZifyBool ZifyNat ZifyN.
From Verif Require Import Base Num Spec SpecFacts Laws Terms Dense DenseFacts DenseArith DenseMul DenseCalc.
Import ListNotations.

(** What taking out a quotient leaves is zero, or has quotient zero (if it has one). *)
Definition nice_div {T} (O : num T) : Prop :=
  forall c b s p r, is_zero O b = false -> div O c b = Ok s -> mul O b s = Ok p -> sub O c p = Ok r ->
    is_zero O r = true \/ forall z, div O r b = Ok z -> is_zero O z = true.

Lemma trunc_nice {T} (O : num T) : trunc_div O -> nice_div O.
Proof. intros H c b s p r _ H1 H2 H3. right. intros z Hz. destruct (H c b s p r H1 H2 H3) as (z' & E & Z). congruence. Qed.

Lemma exact_nice {T} (O : num T) R den : lawful O R den -> exact_div O R den -> nice_div O.
Proof.
  intros L X c b s p r Hb H1 H2 H3. left. apply (lw_is_zero _ _ _ L).
  eapply trunc_or_exact; eassumption.
Qed.

Section DenseDiv.
Context {T : Type} (O : num T) (R : comring) (den : T -> car R) (L : lawful O R den).
Add Ring Rring_dd : (r_theory R).
Notation dc := (dcoef R den).

Lemma first_term_TTerm l c d : first_term O l = TTerm c d ->
  exists q, strip O l = c :: q /\ len q = d /\ is_zero O c = false.
Proof.
  rewrite first_term_strip. destruct (strip_split O l) as (_ & _ & _ & _ & Hs).
  destruct (strip O l) as [|c' q]; [discriminate|]. intros H. injection H as <- <-. eauto.
Qed.

Lemma first_term_app pre c q : all_zero O pre -> is_zero O c = false ->
  first_term O (pre ++ c :: q) = TTerm c (len q).
Proof.
  intros Hp Hc. rewrite first_term_strip. unfold strip.
  assert (fnz O (pre ++ c :: q) = length pre) as ->.
  { induction Hp as [|x pre Hx _ IH]; simpl; [rewrite Hc; reflexivity|]. rewrite Hx, IH. reflexivity. }
  rewrite skipn_length_app. reflexivity.
Qed.

(** One subtraction step, when both leading terms are as given. *)
Definition sub_step (s l r : T) : res T := p <- mul O r s ;; sub O l p.

Lemma vec_sub_unfold lhs c sd rhs b m s : first_term O lhs = TTerm c sd -> first_term O rhs = TTerm b m ->
  vec_sub_w_scale O lhs sd rhs m s =
    (tail' <- zipM (sub_step s) (strip O lhs) (strip O rhs) ;; Ok (firstn (fnz O lhs) lhs ++ tail')).
Proof.
  intros Hl Hr. apply first_term_TTerm in Hl. apply first_term_TTerm in Hr.
  destruct Hl as (ql & Sl & Ll & _), Hr as (qr & Sr & Lr & _).
  destruct (strip_split O lhs) as (pl & El & Pl & _ & _), (strip_split O rhs) as (pr & Er & Pr & _ & _).
  assert (Hll : length lhs = (fnz O lhs + S (N.to_nat sd))%nat).
  { rewrite El at 1. rewrite app_length, Sl, Pl. simpl. unfold len in Ll. lia. }
  assert (Hlr : length rhs = (fnz O rhs + S (N.to_nat m))%nat).
  { rewrite Er at 1. rewrite app_length, Sr, Pr. simpl. unfold len in Lr. lia. }
  unfold vec_sub_w_scale, len.
  rewrite usub_le by lia. cbn [bind]. rewrite usub_le by lia. cbn [bind].
  rewrite usub_le by lia. cbn [bind]. rewrite usub_le by lia. cbn [bind].
  replace (N.of_nat (length lhs) - sd - 1)%N with (N.of_nat (fnz O lhs)) by lia.
  replace (N.of_nat (length rhs) - m - 1)%N with (N.of_nat (fnz O rhs)) by lia.
  destruct (N.leb_spec (N.of_nat (fnz O lhs)) (N.of_nat (length lhs))); [|lia].
  destruct (N.leb_spec (N.of_nat (fnz O rhs)) (N.of_nat (length rhs))); [|lia].
  cbn [andb]. rewrite !Nnat.Nat2N.id, <- !first_nonzero_index_fnz, !slice_from_strip. reflexivity.
Qed.

(** ... when it returns: the new leading element, the length and the coefficients. *)
Lemma vec_sub_spec lhs c sd rhs b m s r : first_term O lhs = TTerm c sd -> first_term O rhs = TTerm b m ->
  (m <= sd)%N -> vec_sub_w_scale O lhs sd rhs m s = Ok r ->
  (exists z p q pre, mul O b s = Ok p /\ sub O c p = Ok z /\ r = pre ++ z :: q /\ all_zero O pre /\ len q = sd) /\
  length r = length lhs /\
  peq (dc r) (psub (dc lhs) (pmul (pmono (den s) (N.to_nat (sd - m))) (dc rhs))).
Proof.
  intros Hl Hr Hm H. rewrite (vec_sub_unfold _ _ _ _ _ _ _ Hl Hr) in H. inv_ok.
  pose proof (first_term_TTerm _ _ _ Hl) as (ql & Sl & Ll & Zc).
  pose proof (first_term_TTerm _ _ _ Hr) as (qr & Sr & Lr & Zb).
  destruct (strip_split O lhs) as (pl & El & Pl & Al & _).
  assert (Hpre : firstn (fnz O lhs) lhs = pl).
  { rewrite El at 2. rewrite <- Pl. apply firstn_length_app. }
  rewrite Hpre. clear Hpre.
  pose proof (zipM_length _ _ _ _ E) as Hlen.
  split; [|split].
  - rewrite Sl, Sr in E. simpl in E. unfold sub_step in E at 1. inv_ok.
    exists v0, v2, v1, pl. repeat split; auto.
    apply zipM_length in E1. unfold len. rewrite E1. exact Ll.
  - rewrite app_length, Hlen. rewrite El at 2. rewrite app_length. reflexivity.
  - intros d. rewrite (dcoef_zeros O R den L) by exact Al.
    unfold psub. rewrite pmul_pmono_l.
    rewrite <- (strip_coef O R den L lhs), <- (strip_coef O R den L rhs).
    unfold len in Ll, Lr.
    assert (HL : length (strip O lhs) = S (N.to_nat sd)) by (rewrite Sl; simpl; lia).
    assert (HR : length (strip O rhs) = S (N.to_nat m)) by (rewrite Sr; simpl; lia).
    rewrite zipM_prefix in E by lia. inv_ok.
    set (t1 := firstn (length (strip O rhs)) (strip O lhs)) in *.
    set (t2 := skipn (length (strip O rhs)) (strip O lhs)) in *.
    assert (H1 : length t1 = length (strip O rhs)) by (unfold t1; rewrite firstn_length; lia).
    assert (H2 : length t2 = N.to_nat (sd - m)) by (unfold t2; rewrite skipn_length; lia).
    assert (Ht : strip O lhs = t1 ++ t2) by (unfold t1, t2; symmetry; apply firstn_skipn).
    rewrite Ht. clearbody t1 t2. rewrite !dcoef_app, H2.
    destruct (Nat.ltb_spec d (N.to_nat (sd - m))); [ring|].
    destruct (Nat.ltb_spec (d - N.to_nat (sd - m)) (length (strip O rhs))).
    + rewrite (zipM_coef R den (sub_step s) (fun x y => rsub x (rmul y (den s)))) with (l := t1) (m := strip O rhs);
        auto; try lia; [ring|].
      intros x y z Hz. unfold sub_step in Hz. inv_ok.
      rewrite (lw_sub _ _ _ L _ _ _ Hz), (lw_mul _ _ _ L _ _ _ E). reflexivity.
    + rewrite (dcoef_overflow R den v0) by (rewrite (zipM_length _ _ _ _ E0); lia).
      rewrite (dcoef_overflow R den t1) by lia. rewrite (dcoef_overflow R den (strip O rhs)) by lia. ring.
Qed.

Lemma dcoef_list_inj l1 l2 : length l1 = length l2 -> peq (dc l1) (dc l2) -> l1 = l2.
Proof.
  intros Hl H. assert (map den l1 = map den l2) as Hm.
  { apply be_coef_inj; [rewrite !map_length; exact Hl|exact H]. }
  clear H. revert l2 Hl Hm. induction l1 as [|x l1 IH]; intros [|y l2] Hl Hm; simpl in *; try lia; [reflexivity|].
  injection Hm as H1 H2. rewrite (lw_inj _ _ _ L _ _ H1). f_equal. apply IH; [lia|exact H2].
Qed.

(** Subtracting a zero multiple changes nothing. *)
Lemma vec_sub_zero lhs c sd rhs b m s r : first_term O lhs = TTerm c sd -> first_term O rhs = TTerm b m ->
  (m <= sd)%N -> is_zero O s = true -> vec_sub_w_scale O lhs sd rhs m s = Ok r -> r = lhs.
Proof.
  intros Hl Hr Hm Hs H. destruct (vec_sub_spec _ _ _ _ _ _ _ _ Hl Hr Hm H) as (_ & Hlen & Hc).
  apply dcoef_list_inj; [exact Hlen|]. intros d. rewrite Hc. unfold psub. rewrite pmul_pmono_l.
  rewrite (is_zero_den O R den L _ Hs). destruct (Nat.ltb d (N.to_nat (sd - m))); ring.
Qed.

Lemma update_coef l i y r : update l i (fun _ => Ok y) = Ok r ->
  length r = length l /\ (i < len l)%N /\
  forall d, dc r d = if Nat.eqb d (length l - 1 - N.to_nat i) then den y else dc l d.
Proof.
  unfold update. destruct (N.ltb_spec i (len l)) as [Hi|]; [|discriminate]. intros H.
  apply update_nat_spec in H. destruct H as (pre & x & post & y' & -> & Hp & Hy & ->). inv_ok.
  rewrite !app_length. simpl length. split; [lia|]. split; [exact Hi|]. intros d.
  replace (length pre + S (length post) - 1 - N.to_nat i)%nat with (length post) by lia.
  rewrite !dcoef_app. simpl length. rewrite !dcoef_cons.
  destruct (Nat.eqb_spec d (length post)); destruct (Nat.ltb_spec d (S (length post))); try lia; reflexivity.
Qed.

Lemma update_returns {A} (l : list A) i y : (i < len l)%N -> exists r, update l i (fun _ => Ok y) = Ok r.
Proof.
  intros H. unfold update. destruct (N.ltb_spec i (len l)); [|lia].
  destruct (nth_error l (N.to_nat i)) as [x|] eqn:E.
  - apply nth_error_split in E. destruct E as (pre & post & -> & Hp). rewrite <- Hp.
    rewrite (update_nat_complete _ _ _ _ y) by reflexivity. eauto.
  - apply nth_error_None in E. unfold len in H. lia.
Qed.

Section Divisor.
Variables (rhs : list T) (b : T) (m : N).
Hypothesis (Hrhs : first_term O rhs = TTerm b m).

Lemma b_nonzero : is_zero O b = false.
Proof. apply first_term_TTerm in Hrhs. destruct Hrhs as (? & _ & _ & H). exact H. Qed.

(** Once a leading division gives zero the loop makes no further progress. *)
Lemma div_loop_stuck offset fuel : forall rem c sd dv, first_term O rem = TTerm c sd -> (m <= sd)%N ->
  (forall z, div O c b = Ok z -> is_zero O z = true) ->
  forall r, div_loop O fuel rhs b m offset c sd rem dv <> Ok r.
Proof.
  induction fuel as [|fuel IH]; intros rem c sd dv Hf Hm Zz r H; [discriminate|].
  cbn [div_loop] in H. destruct (N.leb_spec m sd); [|lia]. inv_ok.
  apply (vec_sub_zero _ _ _ _ _ _ _ _ Hf Hrhs Hm (Zz _ E)) in E0. subst v0. rewrite Hf in H.
  eapply IH; eassumption.
Qed.

(** The remaining degree goes down, or the loop is stuck. *)
Lemma step_degree (N : nice_div O) rem c sd s rem' : first_term O rem = TTerm c sd -> (m <= sd)%N ->
  div O c b = Ok s -> vec_sub_w_scale O rem sd rhs m s = Ok rem' ->
  match first_term O rem' with
  | ZeroTerm => True
  | TTerm c' sd' => (sd' < sd)%N \/
      (sd' = sd /\ forall z, div O c' b = Ok z -> is_zero O z = true)
  end.
Proof.
  intros Hf Hm Hs Hv. destruct (vec_sub_spec _ _ _ _ _ _ _ _ Hf Hrhs Hm Hv) as ((z & p & q & pre & Hp & Hz & -> & Hpre & Hq) & _ & Hc).
  destruct (is_zero O z) eqn:Ez.
  - pose proof (first_term_spec O R den L (pre ++ z :: q)) as Hft.
    destruct (first_term O (pre ++ z :: q)) as [|c' sd']; [exact I|].
    destruct Hft as (Hc0 & Hc1 & _ & _). left.
    destruct (N.lt_ge_cases sd' sd) as [|Hge]; [assumption|exfalso].
    apply (is_zero_false_den O R den L) in Hc0. apply Hc0. rewrite <- Hc1.
    rewrite (dcoef_zeros O R den L) by exact Hpre. rewrite dcoef_cons. unfold len in Hq.
    destruct (Nat.eqb_spec (N.to_nat sd') (length q)); [apply (is_zero_den O R den L), Ez|].
    apply dcoef_overflow. lia.
  - rewrite first_term_app by assumption. right. split; [exact Hq|].
    destruct (N c b s p z b_nonzero Hs Hp Hz) as [E|E]; [congruence|exact E].
Qed.

(** The loop's result. *)
Lemma div_loop_spec (N : nice_div O) offset fuel : forall rem c sd dv dv' rem',
  first_term O rem = TTerm c sd -> (sd <= offset)%N -> (m <= offset)%N ->
  length dv = S (N.to_nat (offset - m)) ->
  ((m <= sd)%N -> forall e, (e <= N.to_nat (sd - m))%nat -> dc dv e = r0) ->
  div_loop O fuel rhs b m offset c sd rem dv = Ok (dv', rem') ->
  length dv' = length dv /\ length rem' = length rem /\
  peq (padd (pmul (dc dv') (dc rhs)) (dc rem')) (padd (pmul (dc dv) (dc rhs)) (dc rem)) /\
  (forall e, (N.to_nat m <= e)%nat -> dc rem' e = r0).
Proof.
  induction fuel as [|fuel IH]; intros rem c sd dv dv' rem' Hf Hsd Hmo Hlen Hfree H; [discriminate|].
  cbn [div_loop] in H. destruct (N.leb_spec m sd) as [Hm|Hm].
  - inv_ok. rewrite usub_le in E1 by lia. inv_ok.
    pose proof (vec_sub_spec _ _ _ _ _ _ _ _ Hf Hrhs Hm E0) as (_ & Hlr & Hc).
    apply update_coef in E2. destruct E2 as (Hl2 & _ & Hd2).
    replace (length dv - 1 - N.to_nat (offset - sd))%nat with (N.to_nat (sd - m)) in Hd2 by lia.
    assert (Hinv : peq (padd (pmul (dc v2) (dc rhs)) (dc v0)) (padd (pmul (dc dv) (dc rhs)) (dc rem))).
    { assert (HQ : peq (dc v2) (padd (dc dv) (pmono (den v) (N.to_nat (sd - m))))).
      { intros d. rewrite Hd2. unfold padd, pmono. destruct (Nat.eqb_spec d (N.to_nat (sd - m))) as [->|].
        - rewrite Hfree by lia. ring.
        - ring. }
      intros d. unfold padd. rewrite (pmul_ext _ _ _ _ HQ (peq_refl (dc rhs))), Hc.
      rewrite pmul_padd_l. unfold padd, psub. ring. }
    pose proof (step_degree N _ _ _ _ _ Hf Hm E E0) as Hstep.
    pose proof (first_term_spec O R den L v0) as Hft.
    destruct (first_term O v0) as [|c' sd'] eqn:Ef.
    + inv_ok. inversion H; subst. split; [lia|]. split; [lia|]. split; [exact Hinv|]. intros e _. apply Hft.
    + destruct Hstep as [Hlt|(-> & Hz)].
      * destruct (IH v0 c' sd' v2 dv' rem' Ef) as (I1 & I2 & I3 & I4); try lia; auto.
        -- intros Hms e He. rewrite Hd2. destruct (Nat.eqb_spec e (N.to_nat (sd - m))); [lia|].
           apply Hfree; lia.
        -- split; [lia|]. split; [lia|]. split; [|exact I4].
           eapply peq_trans; [exact I3|exact Hinv].
      * exfalso. eapply (div_loop_stuck offset fuel v0 c' sd); eassumption.
  - inv_ok. inversion H; subst. split; [reflexivity|]. split; [reflexivity|]. split; [apply peq_refl|].
    pose proof (first_term_spec O R den L rem') as Hft. rewrite Hf in Hft. destruct Hft as (_ & _ & Hft & _).
    intros e He. apply Hft. lia.
Qed.

(** With exact division the loop ends. *)
Lemma div_loop_prompt (X : exact_div O R den) (HP : prompt O) offset fuel : forall rem c sd dv,
  first_term O rem = TTerm c sd -> (N.to_nat sd < fuel)%nat ->
  div_loop O fuel rhs b m offset c sd rem dv <> Fuel.
Proof.
  induction fuel as [|fuel IH]; intros rem c sd dv Hf Hfu; [lia|].
  cbn [div_loop]. destruct (N.leb_spec m sd) as [Hm|Hm]; [|discriminate].
  apply bind_prompt; [apply (pr_div _ HP)|intros s Hs].
  apply bind_prompt.
  { rewrite (vec_sub_unfold _ _ _ _ _ _ _ Hf Hrhs). apply bind_prompt; [|discriminate].
    generalize (strip O rem) as l. generalize (strip O rhs) as k.
    clear - HP. intros k l. revert k. induction l as [|x l IHl]; intros [|y k]; simpl; try discriminate.
    apply bind_prompt; [apply bind_prompt; [apply (pr_mul _ HP)|intros; apply (pr_sub _ HP)]|intros].
    apply bind_prompt; [apply IHl|discriminate]. }
  intros rem' Hv. apply bind_prompt; [unfold usub; destruct (_ <=? _)%N; [|destruct (n_chk O)]; discriminate|intros i _].
  apply bind_prompt; [unfold update; destruct (_ <? _)%N; [|discriminate]|intros dv' _].
  { generalize (N.to_nat i). clear. induction dv as [|x dv IH]; intros [|n]; simpl; try discriminate.
    apply bind_prompt; [apply IH|discriminate]. }
  destruct (vec_sub_spec _ _ _ _ _ _ _ _ Hf Hrhs Hm Hv) as ((z & p & q & pre & Hp & Hz & -> & Hpre & Hq) & _ & _).
  assert (Zz : is_zero O z = true).
  { apply (lw_is_zero _ _ _ L). eapply trunc_or_exact; try eassumption. apply b_nonzero. }
  pose proof (first_term_spec O R den L (pre ++ z :: q)) as Hft.
  destruct (first_term O (pre ++ z :: q)) as [|c' sd'] eqn:Ef; [discriminate|].
  apply IH; [exact Ef|].
  destruct Hft as (Hc0 & Hc1 & _ & _).
  destruct (N.lt_ge_cases sd' sd) as [|Hge]; [lia|exfalso].
  apply (is_zero_false_den O R den L) in Hc0. apply Hc0. rewrite <- Hc1.
  rewrite (dcoef_zeros O R den L) by exact Hpre. rewrite dcoef_cons. unfold len in Hq.
  destruct (Nat.eqb_spec (N.to_nat sd') (length q)); [apply (is_zero_den O R den L), Zz|].
  apply dcoef_overflow. lia.
Qed.

Lemma vec_sub_total (HT : total_ops O) rem c sd s : first_term O rem = TTerm c sd ->
  exists r, vec_sub_w_scale O rem sd rhs m s = Ok r.
Proof.
  intros Hf. rewrite (vec_sub_unfold _ _ _ _ _ _ _ Hf Hrhs).
  assert (forall l k, exists r, zipM (sub_step s) l k = Ok r) as Hz.
  { clear - HT. induction l as [|x l IHl]; intros [|y k]; simpl; eauto. unfold sub_step at 1.
    destruct (to_mul _ HT y s) as (p & ->). simpl. destruct (to_sub _ HT x p) as (w & ->). simpl.
    destruct (IHl k) as (r & ->). simpl. eauto. }
  destruct (Hz (strip O rem) (strip O rhs)) as (r & ->). simpl. eauto.
Qed.

Lemma div_loop_total (X : exact_div O R den) (HT : total_ops O) offset fuel : forall rem c sd dv,
  first_term O rem = TTerm c sd -> (N.to_nat sd < fuel)%nat -> (sd <= offset)%N -> (m <= offset)%N ->
  length dv = S (N.to_nat (offset - m)) ->
  exists r, div_loop O fuel rhs b m offset c sd rem dv = Ok r.
Proof.
  induction fuel as [|fuel IH]; intros rem c sd dv Hf Hfu Hso Hmo Hlen; [lia|].
  cbn [div_loop]. destruct (N.leb_spec m sd) as [Hm|Hm]; [|eauto].
  destruct (X c b b_nonzero) as (s & Hs & He). rewrite Hs. cbn [bind].
  destruct (vec_sub_total HT rem c sd s Hf) as (rem' & Hv). rewrite Hv. cbn [bind].
  rewrite usub_le by lia. cbn [bind].
  destruct (update_returns dv (offset - sd) s) as (dv' & Hu); [unfold len; lia|].
  rewrite Hu. cbn [bind]. apply update_coef in Hu.
  pose proof (step_degree (exact_nice O R den L X) _ _ _ _ _ Hf Hm Hs Hv) as Hstep.
  destruct (vec_sub_spec _ _ _ _ _ _ _ _ Hf Hrhs Hm Hv) as ((z & p & q & pre & Hp & Hz & -> & Hpre & Hq) & _ & _).
  assert (Zz : is_zero O z = true).
  { apply (lw_is_zero _ _ _ L). eapply trunc_or_exact; try eassumption. apply b_nonzero. }
  pose proof (first_term_spec O R den L (pre ++ z :: q)) as Hft.
  destruct (first_term O (pre ++ z :: q)) as [|c' sd'] eqn:Ef; [eauto|].
  assert (sd' < sd)%N.
  { destruct Hft as (Hc0 & Hc1 & _ & _).
    destruct (N.lt_ge_cases sd' sd) as [|Hge]; [lia|exfalso].
    apply (is_zero_false_den O R den L) in Hc0. apply Hc0. rewrite <- Hc1.
    rewrite (dcoef_zeros O R den L) by exact Hpre. rewrite dcoef_cons. unfold len in Hq.
    destruct (Nat.eqb_spec (N.to_nat sd') (length q)); [apply (is_zero_den O R den L), Zz|].
    apply dcoef_overflow. lia. }
  apply IH; auto; lia.
Qed.

End Divisor.

(** ** div_mod *)

(** [p = q * d + r] with [deg r < deg d]. *)
Definition euclid (p d q r : poly R) : Prop :=
  peq p (padd (pmul q d) r) /\
  exists k, is_degree d (Some k) /\ forall e, (k <= e)%nat -> r e = r0.

Lemma first_term_degree l c d : first_term O l = TTerm c d -> is_degree (dc l) (Some (N.to_nat d)).
Proof.
  intros H. pose proof (first_term_spec O R den L l) as Hs. rewrite H in Hs. destruct Hs as (H1 & H2 & H3 & _).
  split; [|exact H3]. rewrite H2. apply (is_zero_false_den O R den L), H1.
Qed.

Lemma first_term_zero l : first_term O l = ZeroTerm <-> peq (dc l) pzero.
Proof.
  pose proof (first_term_spec O R den L l) as Hs. destruct (first_term O l) as [|c d]; [tauto|].
  split; [discriminate|]. intros H. destruct Hs as (H1 & H2 & _). exfalso.
  apply (is_zero_false_den O R den L) in H1. apply H1. rewrite <- H2. apply H.
Qed.

Lemma euclid_small p d k r : is_degree d (Some k) -> (forall e, (k <= e)%nat -> p e = r0) -> peq p r ->
  euclid p d (dc dense_zero) r.
Proof.
  intros Hd Hp Hr. split.
  - intros e. unfold padd. rewrite pmul_zero_l by (intros i; apply dcoef_nil). unfold pzero.
    rewrite radd_0_l. apply Hr.
  - exists k. split; [exact Hd|]. intros e He. rewrite <- Hr. apply Hp, He.
Qed.

Lemma dense_div_mod_spec (N : nice_div O) fuel p rhs q r : vec_ok O p ->
  dense_div_mod O fuel p rhs = Ok (q, r) -> euclid (dc p) (dc rhs) (dc q) (dc r).
Proof.
  intros Hvp. unfold dense_div_mod. destruct (first_term O rhs) as [|b m] eqn:Hr; [discriminate|].
  pose proof (first_term_degree _ _ _ Hr) as Hdeg.
  destruct (first_term O p) as [|c sd] eqn:Hp.
  - intros H. inv_ok. inversion H; subst. apply first_term_zero in Hp.
    eapply euclid_small; [exact Hdeg| |apply peq_refl]. intros e _. apply Hp.
  - destruct (N.ltb_spec sd m) as [Hlt|Hge].
    + intros H. inv_ok. inversion H; subst.
      pose proof (first_term_degree _ _ _ Hp) as [_ Hd2].
      eapply euclid_small; [exact Hdeg| |apply peq_refl]. intros e He. apply Hd2. lia.
    + intros H. inv_ok. destruct v2 as [dv' r']. inv_ok. inversion H; subst. clear H.
      rewrite dense_new_ok in E3, E4. inv_ok.
      rewrite usub_le in E by lia. inv_ok.
      pose proof (first_term_spec O R den L p) as Hs. rewrite Hp in Hs. destruct Hs as (_ & _ & _ & Hs).
      unfold vec_ok in Hvp. pose proof (lw_cap _ _ _ L).
      rewrite uadd_small in E0 by (unfold USIZE_MAX; lia). inv_ok.
      unfold vec_repeat in E1. destruct (N.leb_spec (sd - m + 1) (n_max_len O)) as [Hcap|]; [|discriminate]. inv_ok.
      apply (div_loop_spec rhs b m Hr N) in E2; try assumption; try lia.
      2:{ rewrite repeat_length. lia. }
      2:{ intros _ e _. apply (dcoef_all_zero O R den L), (all_zero_repeat O R den L). }
      destruct E2 as (_ & _ & Heq & Hsm). split.
      * intros e. specialize (Heq e). unfold padd in Heq |- *.
        rewrite (pmul_zero_l (dc (repeat _ _))) in Heq
          by (apply (dcoef_all_zero O R den L), (all_zero_repeat O R den L)).
        unfold pzero in Heq. rewrite radd_0_l in Heq. rewrite <- Heq.
        rewrite (strip_coef O R den L r'). f_equal.
        apply pmul_ext; [apply peq_sym, (strip_coef O R den L)|apply peq_refl].
      * exists (N.to_nat m). split; [exact Hdeg|]. intros e He. rewrite (strip_coef O R den L r'). apply Hsm, He.
Qed.

(** Quotient and remainder are returned without leading zeros, except that a dividend of
    smaller degree is returned as it is. *)
Lemma dense_div_mod_trimmed fuel p rhs q r : dense_div_mod O fuel p rhs = Ok (q, r) ->
  strip O q = q /\ (strip O r = r \/ r = p).
Proof.
  assert (SS : forall l : list T, strip O (strip O l) = strip O l).
  { intros l. destruct (strip_split O l) as (_ & _ & _ & _ & Hs). destruct (strip O l) as [|c x]; [reflexivity|].
    unfold strip. simpl. rewrite Hs. reflexivity. }
  unfold dense_div_mod. destruct (first_term O rhs) as [|b m]; [discriminate|].
  destruct (first_term O p) as [|c sd].
  - intros H. inv_ok. inversion H; subst. auto.
  - destruct (N.ltb sd m).
    + intros H. inv_ok. inversion H; subst. auto.
    + intros H. inv_ok. destruct v2 as [dv' r']. inv_ok. inversion H; subst. clear H.
      rewrite dense_new_ok in E3, E4. inv_ok. rewrite !SS. auto.
Qed.

Lemma dense_div_mod_zero_divisor fuel p rhs : peq (dc rhs) pzero -> dense_div_mod O fuel p rhs = Panic PZeroPoly.
Proof. intros H. apply first_term_zero in H. unfold dense_div_mod. rewrite H. reflexivity. Qed.

(** Exact division: [length p + 1] rounds are enough, and with total operations the call
    returns. *)
Lemma dense_div_mod_prompt (X : exact_div O R den) (HP : prompt O) fuel p rhs : (length p <= fuel)%nat ->
  dense_div_mod O fuel p rhs <> Fuel.
Proof.
  intros Hfu. unfold dense_div_mod. destruct (first_term O rhs) as [|b m] eqn:Hr; [discriminate|].
  destruct (first_term O p) as [|c sd] eqn:Hp; [discriminate|].
  destruct (N.ltb_spec sd m) as [Hlt|Hge]; [discriminate|].
  apply bind_prompt; [unfold usub; destruct (_ <=? _)%N; [|destruct (n_chk O)]; discriminate|intros].
  apply bind_prompt; [unfold uadd; destruct (_ <=? _)%N; [|destruct (n_chk O)]; discriminate|intros].
  apply bind_prompt; [unfold vec_repeat; destruct (_ <=? _)%N; discriminate|intros].
  apply bind_prompt.
  - apply div_loop_prompt; auto. pose proof (first_term_spec O R den L p) as Hs. rewrite Hp in Hs.
    destruct Hs as (_ & _ & _ & Hs). unfold len in Hs. lia.
  - intros [x y] _. rewrite !dense_new_ok. discriminate.
Qed.

Lemma dense_div_mod_total (X : exact_div O R den) (HT : total_ops O) fuel p rhs : (length p <= fuel)%nat ->
  vec_ok O p -> ~ peq (dc rhs) pzero -> exists q r, dense_div_mod O fuel p rhs = Ok (q, r).
Proof.
  intros Hfu Hvp Hnz. unfold dense_div_mod. destruct (first_term O rhs) as [|b m] eqn:Hr.
  { exfalso. apply Hnz, first_term_zero, Hr. }
  destruct (first_term O p) as [|c sd] eqn:Hp; [eauto|].
  destruct (N.ltb_spec sd m) as [Hlt|Hge]; [eauto|].
  pose proof (first_term_spec O R den L p) as Hs. rewrite Hp in Hs. destruct Hs as (_ & _ & _ & Hs).
  unfold vec_ok, len in *. pose proof (lw_cap _ _ _ L).
  rewrite usub_le by lia. cbn [bind]. rewrite uadd_small by (unfold USIZE_MAX; lia). cbn [bind].
  unfold vec_repeat. destruct (N.leb_spec (sd - m + 1) (n_max_len O)); [|lia]. cbn [bind].
  destruct (div_loop_total rhs b m Hr X HT sd fuel p c sd (repeat (zero O) (N.to_nat (sd - m + 1))))
    as ([q r] & ->); auto; try lia.
  { rewrite repeat_length. lia. }
  cbn [bind]. rewrite !dense_new_ok. cbn [bind]. eauto.
Qed.

(** ** uniqueness over an integral domain *)

Definition pfin (p : poly R) : Prop := exists n, forall i, (n <= i)%nat -> p i = r0.

Lemma dcoef_pfin l : pfin (dc l).
Proof. exists (length l). intros i Hi. apply dcoef_overflow. lia. Qed.

(** A multiple [q * d] vanishing from [k + deg d] on has [q] vanishing from [k] on. *)
Lemma mul_vanish (HD : domain R) q d k m : pfin q -> is_degree d (Some m) ->
  (forall e, (k + m <= e)%nat -> pmul q d e = r0) -> forall e, (k <= e)%nat -> q e = r0.
Proof.
  intros (n & Hn) [Hd1 Hd2] Hz.
  assert (forall j e, (n <= e + j)%nat -> (k <= e)%nat -> q e = r0) as Hgen.
  { induction j as [|j IH]; intros e He Hk; [apply Hn; lia|].
    destruct (Nat.le_gt_cases n e); [apply Hn; assumption|].
    specialize (Hz (e + m)%nat ltac:(lia)). unfold pmul in Hz.
    rewrite (sumn_single _ _ e) in Hz; [|lia|].
    - replace (e + m - e)%nat with m in Hz by lia. apply HD in Hz. destruct Hz; [assumption|contradiction].
    - intros i Hi Hne. destruct (Nat.lt_ge_cases i e).
      + rewrite Hd2 by lia. ring.
      + rewrite (IH i) by lia. ring. }
  intros e He. apply (Hgen n e); lia.
Qed.

Lemma euclid_unique (HD : domain R) p d q r q' r' : pfin q -> pfin q' ->
  euclid p d q r -> euclid p d q' r' -> peq q q' /\ peq r r'.
Proof.
  intros Fq Fq' [E1 (k & Hk & Hr)] [E2 (k' & Hk' & Hr')].
  pose proof (is_degree_unique _ _ _ Hk Hk') as Ek. injection Ek as <-.
  assert (Hq : forall e, (0 <= e)%nat -> psub q q' e = r0).
  { apply (mul_vanish HD (psub q q') d 0 k); [|exact Hk|].
    - destruct Fq as (n & Hn), Fq' as (n' & Hn'). exists (Nat.max n n'). intros i Hi. unfold psub.
      rewrite Hn, Hn' by lia. ring.
    - intros e He. rewrite pmul_psub_l. unfold psub. specialize (E1 e). specialize (E2 e).
      unfold padd in E1, E2. rewrite Hr in E1 by lia. rewrite Hr' in E2 by lia.
      rewrite radd_0_r in E1, E2. rewrite <- E1, <- E2. ring. }
  assert (Hqq : peq q q') by (intros e; apply rsub_eq_0, (Hq e); lia).
  split; [exact Hqq|]. intros e. specialize (E1 e). specialize (E2 e). rewrite E1 in E2. unfold padd in E2.
  rewrite (pmul_ext _ _ _ _ Hqq (peq_refl d)) in E2.
  transitivity (rsub (radd (pmul q' d e) (r e)) (pmul q' d e)); [ring|]. rewrite E2. ring.
Qed.

(** ** truncating division: the loop ends when a Euclidean division exists *)

(** [/] finds an exact quotient when there is one. *)
Definition finds_quot : Prop :=
  forall a b s x, is_zero O b = false -> div O a b = Ok s -> den a = rmul x (den b) -> den s = x.

Lemma div_loop_exists (HD : domain R) (FQ : finds_quot) (HP : prompt O) rhs b m (Hrhs : first_term O rhs = TTerm b m)
  offset fuel : forall rem c sd dv q r,
  first_term O rem = TTerm c sd -> (N.to_nat sd < fuel)%nat ->
  pfin q -> euclid (dc rem) (dc rhs) q r ->
  div_loop O fuel rhs b m offset c sd rem dv <> Fuel.
Proof.
  induction fuel as [|fuel IH]; intros rem c sd dv q r Hf Hfu Fq [He (k & Hk & Hr)]; [lia|].
  cbn [div_loop]. destruct (N.leb_spec m sd) as [Hm|Hm]; [|discriminate].
  apply bind_prompt; [apply (pr_div _ HP)|intros s Hs].
  apply bind_prompt.
  { rewrite (vec_sub_unfold _ _ _ _ _ _ _ Hf Hrhs). apply bind_prompt; [|discriminate].
    generalize (strip O rem) as l. generalize (strip O rhs) as k'.
    clear - HP. intros k l. revert k. induction l as [|x l IHl]; intros [|y k]; simpl; try discriminate.
    apply bind_prompt; [apply bind_prompt; [apply (pr_mul _ HP)|intros; apply (pr_sub _ HP)]|intros].
    apply bind_prompt; [apply IHl|discriminate]. }
  intros rem' Hv. apply bind_prompt; [unfold usub; destruct (_ <=? _)%N; [|destruct (n_chk O)]; discriminate|intros i _].
  apply bind_prompt; [unfold update; destruct (_ <? _)%N; [|discriminate]|intros dv' _].
  { generalize (N.to_nat i). clear. induction dv as [|x dv IH]; intros [|n]; simpl; try discriminate.
    apply bind_prompt; [apply IH|discriminate]. }
  pose proof (first_term_degree _ _ _ Hrhs) as Hdeg.
  pose proof (is_degree_unique _ _ _ Hk Hdeg) as Ek. injection Ek as ->.
  pose proof (first_term_degree _ _ _ Hf) as [_ Hrem].
  (* q has degree sd - m at most, and s is its coefficient there *)
  assert (Hq0 : forall e, (S (N.to_nat (sd - m)) <= e)%nat -> q e = r0).
  { apply (mul_vanish HD q (dc rhs) _ (N.to_nat m) Fq Hdeg). intros e Hle. specialize (He e). unfold padd in He.
    rewrite Hr in He by lia. rewrite Hrem in He by lia. rewrite radd_0_r in He. symmetry. exact He. }
  assert (Hsq : den s = q (N.to_nat (sd - m))).
  { apply (FQ c b s); [apply (b_nonzero rhs b m Hrhs)|exact Hs|].
    pose proof (first_term_spec O R den L rem) as Hft. rewrite Hf in Hft. destruct Hft as (_ & Hc & _).
    rewrite <- Hc, He. unfold padd. rewrite Hr by lia. rewrite radd_0_r.
    pose proof (first_term_spec O R den L rhs) as Hft. rewrite Hrhs in Hft. destruct Hft as (_ & Hb & Hb2 & _).
    unfold pmul. rewrite (sumn_single _ _ (N.to_nat (sd - m))); [|lia|].
    - rewrite <- Hb. f_equal. f_equal. lia.
    - intros j Hj Hne. destruct (Nat.lt_ge_cases j (N.to_nat (sd - m))).
      + rewrite Hb2 by lia. ring.
      + rewrite Hq0 by lia. ring. }
  destruct (vec_sub_spec _ _ _ _ _ _ _ _ Hf Hrhs Hm Hv) as (_ & _ & Hc').
  pose proof (first_term_spec O R den L rem') as Hft.
  destruct (first_term O rem') as [|c' sd'] eqn:Ef; [discriminate|].
  set (q' := psub q (pmono (den s) (N.to_nat (sd - m)))).
  assert (He' : peq (dc rem') (padd (pmul q' (dc rhs)) r)).
  { intros e. rewrite Hc'. unfold q', psub at 1, padd. rewrite He. unfold padd. rewrite pmul_psub_l. unfold psub. ring. }
  assert (Hq'0 : forall e, (N.to_nat (sd - m) <= e)%nat -> q' e = r0).
  { intros e Hle. unfold q', psub, pmono. destruct (Nat.eqb_spec e (N.to_nat (sd - m))) as [->|].
    - rewrite Hsq. ring.
    - rewrite Hq0 by lia. ring. }
  apply (IH rem' c' sd' dv' q' r Ef).
  - destruct Hft as (Hz & Hcc & _ & _).
    destruct (N.lt_ge_cases sd' sd) as [|Hge]; [lia|exfalso].
    apply (is_zero_false_den O R den L) in Hz. apply Hz. rewrite <- Hcc, He'. unfold padd.
    rewrite Hr by lia. rewrite radd_0_r. unfold pmul. apply sumn_0. intros j Hj.
    destruct Hdeg as [_ Hdeg]. destruct (Nat.lt_ge_cases j (N.to_nat (sd - m))).
    + rewrite Hdeg by lia. ring.
    + rewrite Hq'0 by lia. ring.
  - exists (N.to_nat (sd - m)). exact Hq'0.
  - split; [exact He'|]. exists (N.to_nat m). split; [exact Hdeg|exact Hr].
Qed.

Lemma dense_div_mod_exists (HD : domain R) (FQ : finds_quot) (HP : prompt O) fuel p rhs q r : (length p <= fuel)%nat ->
  pfin q -> euclid (dc p) (dc rhs) q r -> dense_div_mod O fuel p rhs <> Fuel.
Proof.
  intros Hfu Fq He. unfold dense_div_mod. destruct (first_term O rhs) as [|b m] eqn:Hr; [discriminate|].
  destruct (first_term O p) as [|c sd] eqn:Hp; [discriminate|].
  destruct (N.ltb_spec sd m) as [Hlt|Hge]; [discriminate|].
  apply bind_prompt; [unfold usub; destruct (_ <=? _)%N; [|destruct (n_chk O)]; discriminate|intros].
  apply bind_prompt; [unfold uadd; destruct (_ <=? _)%N; [|destruct (n_chk O)]; discriminate|intros].
  apply bind_prompt; [unfold vec_repeat; destruct (_ <=? _)%N; discriminate|intros].
  apply bind_prompt.
  - eapply div_loop_exists; eauto. pose proof (first_term_spec O R den L p) as Hs. rewrite Hp in Hs.
    destruct Hs as (_ & _ & _ & Hs). unfold len in Hs. lia.
  - intros [x y] _. rewrite !dense_new_ok. discriminate.
Qed.

(** ** floor_div *)

Lemma dense_floor_div_spec fuel p rhs : dense_floor_div O fuel p rhs = (qr <- dense_div_mod O fuel p rhs ;; Ok (fst qr)).
Proof. reflexivity. Qed.

(** ** [%=] *)

Lemma rem_assign_stuck rhs b m (Hrhs : first_term O rhs = TTerm b m) fuel : forall rem c sd z,
  first_term O rem = TTerm c sd -> (m <= sd)%N -> div O c b = Ok z -> is_zero O z = true ->
  forall r, rem_assign_loop O fuel rhs b m z sd rem <> Ok r.
Proof.
  induction fuel as [|fuel IH]; intros rem c sd z Hf Hm Hz Zz r H; [discriminate|].
  cbn [rem_assign_loop] in H. destruct (N.leb_spec m sd); [|lia]. inv_ok.
  apply (vec_sub_zero _ _ _ _ _ _ _ _ Hf Hrhs Hm Zz) in E. subst v. rewrite Hf in H.
  rewrite Hz in H. cbn [bind] in H. eapply IH; eassumption.
Qed.

Lemma rem_assign_loop_spec (N : nice_div O) rhs b m (Hrhs : first_term O rhs = TTerm b m) fuel : forall rem c sd s rem',
  first_term O rem = TTerm c sd -> div O c b = Ok s ->
  rem_assign_loop O fuel rhs b m s sd rem = Ok rem' ->
  exists q, pfin q /\ euclid (dc rem) (dc rhs) q (dc rem').
Proof.
  pose proof (first_term_degree _ _ _ Hrhs) as Hdeg.
  induction fuel as [|fuel IH]; intros rem c sd s rem' Hf Hs H; [discriminate|].
  cbn [rem_assign_loop] in H. destruct (N.leb_spec m sd) as [Hm|Hm].
  - inv_ok. pose proof (step_degree rhs b m Hrhs N _ _ _ _ _ Hf Hm Hs E) as Hstep.
    pose proof (vec_sub_spec _ _ _ _ _ _ _ _ Hf Hrhs Hm E) as (_ & _ & Hc).
    pose proof (first_term_zero v) as Hz0.
    assert (exists q, pfin q /\ euclid (dc v) (dc rhs) q (dc rem')) as (q & Fq & He & Hk).
    { destruct (first_term O v) as [|c' sd'] eqn:Ef.
      - inv_ok. exists pzero. split; [exists 0%nat; reflexivity|]. split.
        + intros e. unfold padd. rewrite pmul_zero_l by apply peq_refl. unfold pzero. ring.
        + eexists. split; [exact Hdeg|]. intros e _. apply Hz0. reflexivity.
      - inv_ok. destruct Hstep as [Hlt|(-> & Hz)].
        + eapply IH; eassumption.
        + exfalso. eapply (rem_assign_stuck rhs b m Hrhs fuel v c' sd v0); try eassumption. apply Hz. assumption. }
    exists (padd q (pmono (den s) (N.to_nat (sd - m)))). split.
    + destruct Fq as (n & Hn). exists (Nat.max n (S (N.to_nat (sd - m)))). intros i Hi. unfold padd, pmono.
      rewrite Hn by lia. destruct (Nat.eqb_spec i (N.to_nat (sd - m))); [lia|ring].
    + split; [|exact Hk]. intros e. specialize (He e). specialize (Hc e). rewrite He in Hc.
      unfold padd at 1. rewrite pmul_padd_l. unfold padd, psub in *.
      transitivity (radd (rsub (dc rem e) (pmul (pmono (den s) (N.to_nat (sd - m))) (dc rhs) e))
        (pmul (pmono (den s) (N.to_nat (sd - m))) (dc rhs) e)); [ring|]. rewrite <- Hc. ring.
  - inv_ok. exists pzero. split; [exists 0%nat; reflexivity|]. split.
    + intros e. unfold padd. rewrite pmul_zero_l by apply peq_refl. unfold pzero. ring.
    + eexists. split; [exact Hdeg|]. intros e He.
      pose proof (first_term_degree _ _ _ Hf) as [_ Hd2]. apply Hd2. lia.
Qed.

Lemma dense_rem_assign_spec (N : nice_div O) fuel p rhs r : dense_rem_assign O fuel p rhs = Ok r ->
  exists q, pfin q /\ euclid (dc p) (dc rhs) q (dc r).
Proof.
  unfold dense_rem_assign. destruct (first_term O rhs) as [|b m] eqn:Hr; [discriminate|].
  pose proof (first_term_degree _ _ _ Hr) as Hdeg.
  destruct (first_term O p) as [|c sd] eqn:Hp.
  - intros H. inv_ok. apply first_term_zero in Hp. exists (dc dense_zero). split; [apply dcoef_pfin|].
    eapply euclid_small; [exact Hdeg| |apply peq_refl]. intros e _. apply Hp.
  - destruct (N.ltb_spec sd m) as [Hlt|Hge].
    + intros H. inv_ok. pose proof (first_term_degree _ _ _ Hp) as [_ Hd2].
      exists (dc dense_zero). split; [apply dcoef_pfin|].
      eapply euclid_small; [exact Hdeg| |apply peq_refl]. intros e He. apply Hd2. lia.
    + intros H. inv_ok. eapply rem_assign_loop_spec; eassumption.
Qed.

Lemma rem_assign_loop_total (X : exact_div O R den) (HT : total_ops O) rhs b m (Hrhs : first_term O rhs = TTerm b m) fuel :
  forall rem c sd s, first_term O rem = TTerm c sd -> div O c b = Ok s -> (N.to_nat sd < fuel)%nat ->
  exists r, rem_assign_loop O fuel rhs b m s sd rem = Ok r.
Proof.
  induction fuel as [|fuel IH]; intros rem c sd s Hf Hs Hfu; [lia|].
  cbn [rem_assign_loop]. destruct (N.leb_spec m sd) as [Hm|Hm]; [|eauto].
  destruct (vec_sub_total rhs b m Hrhs HT rem c sd s Hf) as (rem' & Hv). rewrite Hv. cbn [bind].
  destruct (vec_sub_spec _ _ _ _ _ _ _ _ Hf Hrhs Hm Hv) as ((z & p & q & pre & Hp & Hz & -> & Hpre & Hq) & _ & _).
  pose proof (b_nonzero rhs b m Hrhs) as Hb.
  assert (Zz : is_zero O z = true).
  { apply (lw_is_zero _ _ _ L). eapply trunc_or_exact; try eassumption. }
  pose proof (first_term_spec O R den L (pre ++ z :: q)) as Hft.
  destruct (first_term O (pre ++ z :: q)) as [|c' sd'] eqn:Ef; [eauto|].
  destruct (X c' b Hb) as (s' & Hs' & _). rewrite Hs'. cbn [bind].
  apply (IH _ c'); auto.
  destruct Hft as (Hc0 & Hc1 & _ & _).
  destruct (N.lt_ge_cases sd' sd) as [|Hge]; [lia|exfalso].
  apply (is_zero_false_den O R den L) in Hc0. apply Hc0. rewrite <- Hc1.
  rewrite (dcoef_zeros O R den L) by exact Hpre. rewrite dcoef_cons. unfold len in Hq.
  destruct (Nat.eqb_spec (N.to_nat sd') (length q)); [apply (is_zero_den O R den L), Zz|].
  apply dcoef_overflow. lia.
Qed.

Lemma dense_rem_assign_total (X : exact_div O R den) (HT : total_ops O) fuel p rhs : (length p <= fuel)%nat ->
  ~ peq (dc rhs) pzero -> exists r, dense_rem_assign O fuel p rhs = Ok r.
Proof.
  intros Hfu Hnz. unfold dense_rem_assign. destruct (first_term O rhs) as [|b m] eqn:Hr.
  { exfalso. apply Hnz, first_term_zero, Hr. }
  destruct (first_term O p) as [|c sd] eqn:Hp; [eauto|].
  destruct (N.ltb_spec sd m) as [Hlt|Hge]; [eauto|].
  destruct (X c b (b_nonzero rhs b m Hr)) as (s & Hs & _). rewrite Hs. cbn [bind].
  eapply rem_assign_loop_total; eauto.
  pose proof (first_term_spec O R den L p) as Hs'. rewrite Hp in Hs'. destruct Hs' as (_ & _ & _ & Hs').
  unfold len in Hs'. lia.
Qed.

Lemma dense_rem_assign_zero_divisor fuel p rhs : peq (dc rhs) pzero -> dense_rem_assign O fuel p rhs = Panic PZeroPoly.
Proof. intros H. apply first_term_zero in H. unfold dense_rem_assign. rewrite H. reflexivity. Qed.

(** ** [%] *)

Lemma dense_rem_zero_divisor fuel p rhs : peq (dc rhs) pzero -> dense_rem O fuel p rhs = Panic PZeroPoly.
Proof. intros H. apply first_term_zero in H. unfold dense_rem. rewrite H. reflexivity. Qed.

(** Smaller degree: returned unchanged. *)
Lemma dense_rem_small fuel p rhs m : is_degree (dc rhs) (Some m) ->
  (forall e, (m <= e)%nat -> dc p e = r0) -> dense_rem O fuel p rhs = Ok p.
Proof.
  intros Hd Hp. unfold dense_rem. destruct (first_term O rhs) as [|b m'] eqn:Hr.
  { apply first_term_zero in Hr. destruct Hd as [Hd _]. destruct (Hd (Hr m)). }
  pose proof (is_degree_unique _ _ _ Hd (first_term_degree _ _ _ Hr)) as E. injection E as ->.
  destruct (first_term O p) as [|c sd] eqn:Hq; [reflexivity|].
  destruct (N.ltb_spec sd m') as [|Hge]; [reflexivity|exfalso].
  destruct (first_term_degree _ _ _ Hq) as [H _]. apply H, Hp. lia.
Qed.

(** Otherwise it never returns. *)
Lemma rem_loop_never p c d rhs b m : first_term O p = TTerm c d -> (m <= d)%N ->
  forall fuel s rem r, rem_loop O fuel p rhs b m s d rem <> Ok r.
Proof.
  intros Hp Hm. induction fuel as [|fuel IH]; intros s rem r H; [discriminate|].
  cbn [rem_loop] in H. destruct (N.leb_spec m d); [|lia]. inv_ok. rewrite Hp in H. inv_ok.
  eapply IH; eassumption.
Qed.

Lemma dense_rem_never fuel p rhs m n r : is_degree (dc rhs) (Some m) -> is_degree (dc p) (Some n) -> (m <= n)%nat ->
  dense_rem O fuel p rhs <> Ok r.
Proof.
  intros Hd Hp Hmn. unfold dense_rem. destruct (first_term O rhs) as [|b m'] eqn:Hr.
  { discriminate. }
  pose proof (is_degree_unique _ _ _ Hd (first_term_degree _ _ _ Hr)) as E. injection E as ->.
  destruct (first_term O p) as [|c sd] eqn:Hq.
  { apply first_term_zero in Hq. destruct Hp as [Hp _]. destruct (Hp (Hq n)). }
  pose proof (is_degree_unique _ _ _ Hp (first_term_degree _ _ _ Hq)) as E. injection E as ->.
  destruct (N.ltb_spec sd m') as [|Hge]; [lia|]. intros H. inv_ok.
  eapply (rem_loop_never p); [exact Hq|exact Hge|exact E0].
Qed.

End DenseDiv.

Arguments euclid {R}.
Arguments pfin {R}.
