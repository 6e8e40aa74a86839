(** Sparse div_mod, % and %=: the divisor is never shifted to the leading degree. *)

From Coq Require Import List NArith ZArith Lia Bool Ring Arith Sorted.
From Coq Require Import ZifyBool ZifyNat ZifyN.
From Verif Require Import Base Num Spec SpecFacts Laws Terms Dense DenseFacts DenseDiv.
From Verif Require Import Sparse SparseFacts SparseArith SparseCalc.
Import ListNotations.

Section SparseDiv.
Context {T : Type} (O : num T) (R : comring) (den : T -> car R) (L : lawful O R den).
Add Ring Rring5 : (r_theory R).
Notation sc := (scoef R den).

Definition sws_none (s : T) (kv : N * T) : res T := n <- neg O (snd kv) ;; mul O n s.
Definition sws_some (s : T) (kv : N * T) (l : T) : res T := p <- mul O (snd kv) s ;; sub O l p.

Lemma sub_scale_spec lhs rhs s r : swf lhs -> swf rhs -> map_sub_w_scale O lhs rhs s = Ok r ->
  swf r /\ peq (sc r) (psub (sc lhs) (pscale (sc rhs) (den s))).
Proof.
  intros Hl Hr H. unfold map_sub_w_scale in H.
  destruct (fold_upsert_spec R den (fun kv => Ok (fst kv)) (sws_none s) (sws_some s) fst
     (fun kv => ropp (rmul (den (snd kv)) (den s))) rhs lhs r Hl) as [W C].
  - eapply Forall_impl; [|apply Hr]. intros kv Hk. split; [|split].
    + intros d Hd. inv_ok. auto.
    + intros v Hv. unfold sws_none in Hv. inv_ok. rewrite (lw_mul _ _ _ L _ _ _ Hv), (lw_neg _ _ _ L _ _ E). ring.
    + intros x v Hv. unfold sws_some in Hv. inv_ok. rewrite (lw_sub _ _ _ L _ _ _ Hv), (lw_mul _ _ _ L _ _ _ E). ring.
  - exact H.
  - split; [exact W|]. intros d. rewrite C. unfold padd, psub, pscale.
    assert (E : peq (terms_coef (addends R fst (fun kv => ropp (rmul (den (snd kv)) (den s))) rhs))
                    (popp (pscale (sc rhs) (den s)))).
    { intros i. unfold popp. unfold scoef. rewrite <- terms_coef_scale.
      change (ropp (terms_coef (map (fun t => (rmul (fst t) (den s), snd t)) (sentries R den rhs)) i))
        with (popp (terms_coef (map (fun t => (rmul (fst t) (den s), snd t)) (sentries R den rhs))) i).
      rewrite <- terms_coef_opp. unfold addends, sentries. rewrite !map_map. reflexivity. }
    rewrite E. unfold popp, pscale. ring.
Qed.

Lemma sub_scale_total (HT : total_ops O) lhs rhs s : exists r, map_sub_w_scale O lhs rhs s = Ok r.
Proof.
  unfold map_sub_w_scale. apply (fold_upsert_total (fun kv => Ok (fst kv)) (sws_none s) (sws_some s)).
  rewrite Forall_forall. intros kv _. split; [eauto|]. split.
  - unfold sws_none. destruct (to_neg _ HT (snd kv)) as (n & ->). cbn [bind]. apply (to_mul _ HT).
  - intros x. unfold sws_some. destruct (to_mul _ HT (snd kv) s) as (p & ->). cbn [bind]. apply (to_sub _ HT).
Qed.

(** The entry of the divisor's leading degree is treated as in the dense case. *)
Lemma m_upsert_get (m : bmap T) k none some m' k' : m_upsert m k none some = Ok m' -> k' <> k -> m_get k' m' = m_get k' m.
Proof.
  intros H Hn. unfold m_upsert in H. destruct (m_get k m); inv_ok; rewrite m_get_insert;
    destruct (N.eqb_spec k' k); congruence.
Qed.

Lemma sub_scale_at rhs s k b c : StronglySorted key_lt rhs -> In (k, b) rhs -> forall lhs r,
  map_sub_w_scale O lhs rhs s = Ok r -> m_get k lhs = Some c ->
  exists p v, mul O b s = Ok p /\ sub O c p = Ok v /\ m_get k r = Some v.
Proof.
  unfold map_sub_w_scale. induction 1 as [|[k1 b1] rhs Hs IH Hf]; intros Hi lhs r H Hg; [destruct Hi|].
  simpl in H. inv_ok. destruct Hi as [E1|Hi].
  - injection E1 as -> ->. unfold m_upsert in E. rewrite Hg in E. inv_ok.
    exists v1, v0. split; [assumption|]. split; [assumption|].
    assert (G : m_get k (m_insert k v0 lhs) = Some v0) by (rewrite m_get_insert, N.eqb_refl; reflexivity).
    revert H G. generalize (m_insert k v0 lhs) as m0. clear -Hf. induction rhs as [|[k2 b2] rhs IHr]; intros m0 H G; simpl in H; inv_ok.
    + exact G.
    + inversion Hf as [|? ? Hk Hf']; subst. eapply IHr; [exact Hf'|exact H|]. rewrite <- G.
      eapply m_upsert_get; [exact E|]. unfold key_lt in Hk. simpl in Hk. lia.
  - assert (Hne : k <> k1).
    { rewrite Forall_forall in Hf. specialize (Hf _ Hi). unfold key_lt in Hf. simpl in Hf. lia. }
    apply (IH Hi _ _ H). rewrite <- Hg. eapply m_upsert_get; [exact E|exact Hne].
Qed.

Section Loop.
Context (rhs : bmap T) (b : T) (m : N) (Hrhs : swf rhs) (Hb : sparse_first_term O rhs = TTerm b m).

Lemma b_facts : is_zero O b = false /\ sc rhs (N.to_nat m) = den b /\ is_degree (sc rhs) (Some (N.to_nat m)) /\ m_get m rhs = Some b.
Proof. pose proof (sparse_first_term_spec O R den L rhs (proj1 Hrhs)) as H. rewrite Hb in H. exact H. Qed.

Lemma same_first rem rem' c d : swf rem -> swf rem' -> sparse_first_term O rem = TTerm c d ->
  (forall e, (N.to_nat d <= e)%nat -> sc rem' e = sc rem e) -> sparse_first_term O rem' = TTerm c d.
Proof.
  intros Hm Hm' Hf He. destruct (sparse_first_term_degree O R den L rem c d (proj1 Hm) Hf) as (H1 & H2 & H3).
  destruct (sparse_first_term_of O R den L rem' (N.to_nat d) (proj1 Hm')) as (c' & A & B & _).
  - split; [rewrite He by lia; apply H3|]. intros i Hi. rewrite He by lia. apply H3, Hi.
  - rewrite N2Nat.id in A. rewrite A. f_equal. apply (lw_inj _ _ _ L). rewrite B, He by lia. exact H2.
Qed.

(** A leading term the divisor does not reach stays for ever. *)
Lemma rem_loop_high fuel : forall rem c d s r, swf rem -> sparse_first_term O rem = TTerm c d -> (m < d)%N ->
  sparse_rem_loop O fuel rhs b m s d rem <> Ok r.
Proof.
  induction fuel as [|fuel IH]; intros rem c d s r Hm Hf Hd; [discriminate|]. cbn [sparse_rem_loop].
  destruct (N.leb_spec m d); [|lia]. intros H0. inv_ok.
  destruct (sub_scale_spec rem rhs s v Hm Hrhs E) as [W C].
  assert (F : sparse_first_term O v = TTerm c d).
  { apply (same_first rem v c d Hm W Hf). intros e He. rewrite C. unfold psub, pscale.
    destruct b_facts as (_ & _ & [_ Hdeg] & _). rewrite Hdeg by lia. ring. }
  rewrite F in H0. inv_ok. revert H0. eapply IH; eassumption.
Qed.

Lemma rem_loop_stuck fuel : forall rem c d z r, swf rem -> sparse_first_term O rem = TTerm c d -> (m <= d)%N ->
  div O c b = Ok z -> is_zero O z = true -> sparse_rem_loop O fuel rhs b m z d rem <> Ok r.
Proof.
  induction fuel as [|fuel IH]; intros rem c d z r Hm Hf Hd Hz Hzz; [discriminate|]. cbn [sparse_rem_loop].
  destruct (N.leb_spec m d); [|lia]. intros H0. inv_ok.
  destruct (sub_scale_spec rem rhs z v Hm Hrhs E) as [W C].
  assert (F : sparse_first_term O v = TTerm c d).
  { apply (same_first rem v c d Hm W Hf). intros e He. rewrite C. unfold psub, pscale.
    rewrite (is_zero_den O R den L z Hzz). ring. }
  rewrite F in H0. inv_ok. assert (v0 = z) by congruence. subst v0. revert H0. eapply IH; eassumption.
Qed.

(** If the loop ends, then after one round and only for equal degrees. *)
Lemma rem_loop_spec (ND : nice_div O) fuel rem c d s r : swf rem -> sparse_first_term O rem = TTerm c d -> (m <= d)%N ->
  div O c b = Ok s -> sparse_rem_loop O fuel rhs b m s d rem = Ok r ->
  d = m /\ map_sub_w_scale O rem rhs s = Ok r /\ forall e, (N.to_nat m <= e)%nat -> sc r e = r0.
Proof.
  intros Hm Hf Hd Hs H.
  assert (Ed : d = m).
  { destruct (N.eq_dec d m) as [->|Hne]; [reflexivity|]. exfalso. eapply rem_loop_high; [exact Hm|exact Hf| |exact H]. lia. }
  subst d. split; [reflexivity|]. destruct fuel as [|fuel]; [discriminate|]. cbn [sparse_rem_loop] in H.
  destruct (N.leb_spec m m); [|lia]. inv_ok. destruct (sub_scale_spec rem rhs s v Hm Hrhs E) as [W C].
  pose proof (sparse_first_term_spec O R den L v (proj1 W)) as Hv.
  destruct (sparse_first_term O v) as [|c' d'] eqn:Ev.
  - inv_ok. split; [exact E|]. intros e _. apply Hv.
  - inv_ok. destruct Hv as (Z1 & Z2 & Z3 & Z4).
    assert (Hle : (d' <= m)%N).
    { destruct (N.leb_spec d' m); [assumption|]. exfalso. apply (is_zero_false_den O R den L _ Z1). rewrite <- Z2, C.
      destruct (sparse_first_term_degree O R den L rem c m (proj1 Hm) Hf) as (_ & _ & [_ Hg]).
      destruct b_facts as (_ & _ & [_ Hg2] & _). unfold psub, pscale. rewrite Hg, Hg2 by lia. ring. }
    destruct (N.eq_dec d' m) as [->|Hne].
    + exfalso. destruct b_facts as (B1 & B2 & B3 & B4).
      assert (Hgc : m_get m rem = Some c).
      { pose proof (sparse_first_term_spec O R den L rem (proj1 Hm)) as Hr. rewrite Hf in Hr. apply Hr. }
      destruct (sub_scale_at rhs s m b c (proj1 Hrhs) (m_get_in _ _ _ B4) rem v E Hgc) as (p & x & P1 & P2 & P3).
      assert (x = c') by congruence. subst x.
      destruct (ND c b s p c' B1 Hs P1 P2) as [Hz|Hz]; [congruence|].
      apply (rem_loop_stuck fuel v c' m v0 r W Ev ltac:(lia) ltac:(assumption) ltac:(apply Hz; assumption) H).
    + destruct fuel as [|fuel]; [discriminate|]. cbn [sparse_rem_loop] in H. destruct (N.leb_spec m d'); [lia|]. inv_ok.
      split; [exact E|]. intros e He. apply Z3. lia.
Qed.

(** The quotient loop runs in step with the remainder loop. *)
Lemma div_loop_rem fuel : forall offset s d rem dv dv' rem',
  sparse_div_loop O fuel rhs b m offset s d rem dv = Ok (dv', rem') -> sparse_rem_loop O fuel rhs b m s d rem = Ok rem'.
Proof.
  induction fuel as [|fuel IH]; intros offset s d rem dv dv' rem' H; [discriminate|]. cbn [sparse_div_loop sparse_rem_loop] in *.
  destruct (m <=? d)%N; [|inv_ok; congruence]. inv_ok. rewrite E. cbn [bind].
  destruct (sparse_first_term O v) as [|c' d']; [inv_ok; congruence|]. inv_ok. rewrite E1. cbn [bind]. eapply IH, H.
Qed.

End Loop.

Lemma euclid_small_s p d k r : is_degree d (Some k) -> (forall e, (k <= e)%nat -> p e = r0) -> peq p r ->
  euclid p d (sc []) r.
Proof.
  intros Hd Hp Hr. split.
  - intros e. unfold padd. rewrite pmul_zero_l by (intros i; apply scoef_nil). unfold pzero.
    rewrite radd_0_l. apply Hr.
  - exists k. split; [exact Hd|]. intros e He. rewrite <- Hr. apply Hp, He.
Qed.

Lemma const_quot (a d r : poly R) s k : is_degree d (Some k) -> peq r (psub a (pscale d s)) ->
  (forall e, (k <= e)%nat -> r e = r0) -> euclid a d (pmono s 0) r.
Proof.
  intros Hd C Hr. split.
  - intros e. unfold padd. rewrite pmul_pmono_l. simpl. rewrite Nat.sub_0_r, C. unfold psub, pscale. ring.
  - exists k. auto.
Qed.

Lemma euclid_ext_q (p d q q' r : poly R) : peq q q' -> euclid p d q r -> euclid p d q' r.
Proof.
  intros H [E1 E2]. split; [|exact E2]. intros e. rewrite E1. unfold padd. f_equal.
  apply pmul_ext; [exact H|apply peq_refl].
Qed.

Definition deg_le (p d : poly R) : Prop := forall n, is_degree d (Some n) -> forall e, (n < e)%nat -> p e = r0.

(** Whatever div_mod returns is a quotient and remainder, and it returns only when the
    degree of the dividend does not exceed that of the divisor. *)
Lemma sparse_div_mod_spec (ND : nice_div O) fuel p rhs q r : swf p -> swf rhs -> sparse_div_mod O fuel p rhs = Ok (q, r) ->
  swf q /\ swf r /\ euclid (sc p) (sc rhs) (sc q) (sc r) /\ deg_le (sc p) (sc rhs).
Proof.
  intros Hp Hr H. unfold sparse_div_mod in H. destruct (sparse_first_term O rhs) as [|b m] eqn:Eb; [discriminate|].
  destruct (b_facts rhs b m Hr Eb) as (B1 & B2 & B3 & B4).
  destruct (sparse_first_term O p) as [|c d] eqn:Ep.
  - inv_ok. injection H as <- <-. apply (sparse_first_term_zero O R den L p (proj1 Hp)) in Ep.
    split; [apply swf_nil|]. split; [exact Hp|]. split.
    + apply (euclid_small_s (sc p) (sc rhs) (N.to_nat m)); [exact B3|intros e _; apply Ep|apply peq_refl].
    + intros n _ e _. apply Ep.
  - destruct (sparse_first_term_degree O R den L p c d (proj1 Hp) Ep) as (P1 & P2 & P3).
    destruct (N.ltb_spec d m) as [Hlt|Hge].
    + inv_ok. injection H as <- <-. split; [apply swf_nil|]. split; [exact Hp|]. split.
      * apply (euclid_small_s (sc p) (sc rhs) (N.to_nat m)); [exact B3|intros e He; apply P3; lia|apply peq_refl].
      * intros n Hn e He. pose proof (is_degree_unique _ _ _ Hn B3) as U. injection U as ->. apply P3. lia.
    + inv_ok. pose proof (div_loop_rem rhs b m fuel _ _ _ _ _ _ _ H) as Hl.
      destruct (rem_loop_spec rhs b m Hr Eb ND fuel p c d v r Hp Ep Hge E Hl) as (-> & Hsub & Hz).
      rewrite usub_le in E0 by lia. inv_ok. rewrite N.sub_diag in H.
      destruct fuel as [|fuel]; [discriminate|]. cbn [sparse_div_loop] in H. destruct (N.leb_spec m m); [|lia].
      rewrite Hsub in H. cbn [bind] in H. inv_ok.
      destruct (sub_scale_spec p rhs v r Hp Hr Hsub) as [Wr Cr].
      destruct (sparse_add_term_spec O R den L [] v 0 v0 swf_nil ltac:(lia) E0) as [Wq Cq].
      assert (Hq : q = v0).
      { destruct (sparse_first_term O r) as [|c' d'] eqn:Er; [inv_ok; congruence|].
        pose proof (sparse_first_term_degree O R den L r c' d' (proj1 Wr) Er) as (_ & _ & [Hn _]).
        inv_ok. destruct fuel as [|fuel]; [discriminate|]. cbn [sparse_div_loop] in H.
        destruct (N.leb_spec m d') as [Hx|]; [|inv_ok; congruence]. exfalso. apply Hn, Hz. lia. }
      subst v0. split; [exact Wq|]. split; [exact Wr|]. split.
      * apply (euclid_ext_q _ _ (pmono (den v) 0)).
        { intros i. rewrite Cq. unfold padd. rewrite scoef_nil. change (N.to_nat 0) with 0%nat. ring. }
        apply (const_quot _ _ _ _ (N.to_nat m)); assumption.
      * intros n Hn e He. pose proof (is_degree_unique _ _ _ Hn B3) as U. injection U as ->. apply P3. lia.
Qed.

Lemma sparse_rem_spec (ND : nice_div O) fuel p rhs r : swf p -> swf rhs -> sparse_rem O fuel p rhs = Ok r ->
  swf r /\ (exists q, pfin q /\ euclid (sc p) (sc rhs) q (sc r)) /\ deg_le (sc p) (sc rhs).
Proof.
  intros Hp Hr H. unfold sparse_rem in H. destruct (sparse_first_term O rhs) as [|b m] eqn:Eb; [discriminate|].
  destruct (b_facts rhs b m Hr Eb) as (B1 & B2 & B3 & B4).
  assert (F0 : pfin (sc [])) by (exists 0%nat; intros; apply scoef_nil).
  destruct (sparse_first_term O p) as [|c d] eqn:Ep.
  - inv_ok. apply (sparse_first_term_zero O R den L r (proj1 Hp)) in Ep.
    split; [exact Hp|]. split.
    + exists (sc []). split; [exact F0|]. apply (euclid_small_s (sc r) (sc rhs) (N.to_nat m)); [exact B3|intros e _; apply Ep|apply peq_refl].
    + intros n _ e _. apply Ep.
  - destruct (sparse_first_term_degree O R den L p c d (proj1 Hp) Ep) as (P1 & P2 & P3).
    destruct (N.ltb_spec d m) as [Hlt|Hge].
    + inv_ok. split; [exact Hp|]. split.
      * exists (sc []). split; [exact F0|].
        apply (euclid_small_s (sc r) (sc rhs) (N.to_nat m)); [exact B3|intros e He; apply P3; lia|apply peq_refl].
      * intros n Hn e He. pose proof (is_degree_unique _ _ _ Hn B3) as U. injection U as ->. apply P3. lia.
    + inv_ok. destruct (rem_loop_spec rhs b m Hr Eb ND fuel p c d v r Hp Ep Hge E H) as (-> & Hsub & Hz).
      destruct (sub_scale_spec p rhs v r Hp Hr Hsub) as [Wr Cr]. split; [exact Wr|]. split.
      * exists (pmono (den v) 0). split.
        -- exists 1%nat. intros i Hi. unfold pmono. destruct (Nat.eqb_spec i 0); [lia|reflexivity].
        -- apply (const_quot _ _ _ _ (N.to_nat m)); assumption.
      * intros n Hn e He. pose proof (is_degree_unique _ _ _ Hn B3) as U. injection U as ->. apply P3. lia.
Qed.

(** A dividend of higher degree: never. *)
Lemma sparse_never fuel p rhs n k : swf p -> swf rhs -> is_degree (sc p) (Some n) -> is_degree (sc rhs) (Some k) -> (k < n)%nat ->
  (forall r, sparse_rem O fuel p rhs <> Ok r) /\ (forall qr, sparse_div_mod O fuel p rhs <> Ok qr).
Proof.
  intros Hp Hr Hn Hk Hlt.
  destruct (sparse_first_term_of O R den L p n (proj1 Hp) Hn) as (c & Ep & _ & _).
  destruct (sparse_first_term_of O R den L rhs k (proj1 Hr) Hk) as (b & Eb & _ & _).
  assert (HR : forall r, sparse_rem O fuel p rhs <> Ok r).
  { intros r H. unfold sparse_rem in H. rewrite Eb, Ep in H. destruct (N.ltb_spec (N.of_nat n) (N.of_nat k)); [lia|]. inv_ok.
    revert H. eapply rem_loop_high; [exact Hr|exact Eb|exact Hp|exact Ep|lia]. }
  split; [exact HR|]. intros [q r] H. unfold sparse_div_mod in H. rewrite Eb, Ep in H.
  destruct (N.ltb_spec (N.of_nat n) (N.of_nat k)); [lia|]. inv_ok. apply (div_loop_rem rhs b) in H.
  revert H. eapply rem_loop_high; [exact Hr|exact Eb|exact Hp|exact Ep|lia].
Qed.


(** With total arithmetic and exact division it runs for ever. *)
Lemma sparse_runs_forever (HT : total_ops O) (X : exact_div O R den) p rhs n k : swf p -> swf rhs ->
  is_degree (sc p) (Some n) -> is_degree (sc rhs) (Some k) -> (k < n)%nat ->
  forall fuel, sparse_rem O fuel p rhs = Fuel /\ sparse_div_mod O fuel p rhs = Fuel.
Proof.
  intros Hp Hr Hn Hk Hlt fuel.
  destruct (sparse_first_term_of O R den L p n (proj1 Hp) Hn) as (c & Ep & _ & Zc).
  destruct (sparse_first_term_of O R den L rhs k (proj1 Hr) Hk) as (b & Eb & _ & Zb).
  assert (HR : forall fuel rem s, swf rem -> sparse_first_term O rem = TTerm c (N.of_nat n) ->
            sparse_rem_loop O fuel rhs b (N.of_nat k) s (N.of_nat n) rem = Fuel /\
            forall off dv, sparse_div_loop O fuel rhs b (N.of_nat k) off s (N.of_nat n) rem dv = Fuel).
  { clear fuel. induction fuel as [|fuel IH]; intros rem s Hm Hf; [auto|]. cbn [sparse_rem_loop sparse_div_loop].
    destruct (N.leb_spec (N.of_nat k) (N.of_nat n)); [|lia].
    destruct (sub_scale_total HT rem rhs s) as (v & Ev). rewrite Ev. cbn [bind].
    destruct (sub_scale_spec rem rhs s v Hm Hr Ev) as [W C].
    assert (F : sparse_first_term O v = TTerm c (N.of_nat n)).
    { apply (same_first rem v c (N.of_nat n) Hm W Hf). intros e He. rewrite C. unfold psub, pscale.
      destruct Hk as [_ Hdeg]. rewrite Hdeg by lia. ring. }
    rewrite F. destruct (X c b Zb) as (s' & Es & _). rewrite Es. cbn [bind]. destruct (IH v s' W F) as [I1 I2].
    split; [exact I1|]. intros off dv.
    assert (Ea : exists dv', sparse_add_term O dv s off = Ok dv').
    { unfold sparse_add_term. destruct (is_zero O s); [eauto|]. unfold m_upsert. destruct (m_get off dv) as [x|]; simpl; [|eauto].
      destruct (to_add _ HT x s) as (y & ->). simpl. eauto. }
    destruct Ea as (dv' & ->). cbn [bind]. apply I2. }
  unfold sparse_rem, sparse_div_mod. rewrite Eb, Ep. destruct (N.ltb_spec (N.of_nat n) (N.of_nat k)); [lia|].
  destruct (X c b Zb) as (s & Es & _). rewrite Es. cbn [bind]. rewrite usub_le by lia. cbn [bind].
  split; apply HR; assumption.
Qed.

(** When it does return: dividend of at most the divisor's degree, exact division. *)
Lemma sparse_div_mod_returns (HT : total_ops O) (X : exact_div O R den) fuel p rhs k : swf p -> swf rhs ->
  is_degree (sc rhs) (Some k) -> (forall e, (k < e)%nat -> sc p e = r0) ->
  (exists qr, sparse_div_mod O (S (S fuel)) p rhs = Ok qr) /\ (exists r, sparse_rem O (S (S fuel)) p rhs = Ok r).
Proof.
  intros Hp Hr Hk Hle.
  destruct (sparse_first_term_of O R den L rhs k (proj1 Hr) Hk) as (b & Eb & Db & Zb).
  unfold sparse_div_mod, sparse_rem. rewrite Eb. destruct (sparse_first_term O p) as [|c d] eqn:Ep; [eauto|].
  destruct (sparse_first_term_degree O R den L p c d (proj1 Hp) Ep) as (P1 & P2 & P3).
  destruct (N.ltb_spec d (N.of_nat k)); [eauto|].
  assert (d = N.of_nat k).
  { destruct (N.eq_dec d (N.of_nat k)); [assumption|]. exfalso. destruct P3 as [P3 _]. apply P3, Hle. lia. }
  subst d. destruct (X c b Zb) as (s & Es & He). rewrite Es. cbn [bind]. rewrite usub_le by lia. cbn [bind].
  destruct (sub_scale_total HT p rhs s) as (v & Ev).
  destruct (sub_scale_spec p rhs s v Hp Hr Ev) as [W C]. rewrite Nat2N.id in *.
  assert (Hz : forall e, (k <= e)%nat -> sc v e = r0).
  { intros e Hek. rewrite C. unfold psub, pscale. destruct (Nat.eq_dec e k) as [->|].
    - rewrite P2, <- Db, <- He. ring.
    - rewrite Hle by lia. destruct Hk as [_ Hk]. rewrite Hk by lia. ring. }
  assert (Ea : exists dv', sparse_add_term O [] s (N.of_nat k - N.of_nat k) = Ok dv').
  { unfold sparse_add_term. destruct (is_zero O s); eexists; reflexivity. }
  destruct Ea as (dv' & Ea).
  cbn [sparse_div_loop sparse_rem_loop]. destruct (N.leb_spec (N.of_nat k) (N.of_nat k)); [|lia].
  rewrite Ev. cbn [bind]. rewrite Ea. cbn [bind].
  destruct (sparse_first_term O v) as [|c' d'] eqn:Efv; [eauto|].
  destruct (sparse_first_term_degree O R den L v c' d' (proj1 W) Efv) as (Q1 & Q2 & [Q3 _]).
  destruct (X c' b Zb) as (s' & -> & _). cbn [bind].
  destruct (N.leb_spec (N.of_nat k) d'); [|eauto]. exfalso. apply Q3, Hz. lia.
Qed.

Lemma sparse_zero_divisor fuel p rhs : swf rhs -> peq (sc rhs) pzero ->
  sparse_div_mod O fuel p rhs = Panic PZeroPoly /\ sparse_rem O fuel p rhs = Panic PZeroPoly.
Proof.
  intros Hr H. apply (sparse_first_term_zero O R den L rhs (proj1 Hr)) in H. unfold sparse_div_mod, sparse_rem. rewrite H. auto.
Qed.

End SparseDiv.
