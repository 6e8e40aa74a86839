(** Sparse polynomials: evaluation, derivative, integral, shifts, construction, term updates. *)

From Coq Require Import List NArith ZArith Lia Bool Ring Arith Sorted.
From Coq Require Import ZifyBool ZifyNat ZifyN.
From Verif Require Import Base Num Spec SpecFacts Laws Terms Dense DenseFacts DenseCalc DenseShift DenseMut.
From Verif Require Import Sparse SparseFacts SparseArith.
Import ListNotations.

Section SparseCalc.
Context {T : Type} (O : num T) (R : comring) (den : T -> car R) (L : lawful O R den).
Add Ring Rring4 : (r_theory R).
Notation sc := (scoef R den).

Lemma swf_nil : swf (@nil (N * T)).
Proof. split; constructor. Qed.

(** ** Evaluation *)

Definition eval_step (x : T) (sum : T) (kv : N * T) : res T :=
  pw <- upow O x (fst kv) ;; p <- mul O (snd kv) pw ;; add O sum p.

Lemma eval_fold_value x m : forall s r, Forall (fun kv => (fst kv < 2 ^ 32)%N) m -> foldM (eval_step x) s m = Ok r ->
  exists v, is_value (sc m) (den x) v /\ den r = radd (den s) v.
Proof.
  induction m as [|[k c] m IH]; intros s r Hk H; simpl in H; inv_ok.
  - exists r0. split; [apply is_value_zero; intros d; apply scoef_nil|ring].
  - inversion Hk as [|? ? Hk1 Hk2]; subst. unfold eval_step in E. simpl in E, Hk1. inv_ok.
    destruct (IH _ _ Hk2 H) as (w & Hw & Er).
    exists (radd (rmul (den c) (rpow (den x) (N.to_nat k))) w). split.
    + eapply is_value_ext; [apply peq_sym, scoef_cons|]. apply is_value_padd; [apply is_value_pmono|exact Hw].
    + rewrite Er, (lw_add _ _ _ L _ _ _ E), (lw_mul _ _ _ L _ _ _ E1), (lw_upow _ _ _ L _ _ _ Hk1 E0). ring.
Qed.

Lemma sparse_eval_value m x r : Forall (fun kv => (fst kv < 2 ^ 32)%N) m -> sparse_eval O m x = Ok r ->
  is_value (sc m) (den x) (den r).
Proof.
  intros Hk H. destruct (eval_fold_value x m (zero O) r Hk H) as (v & Hv & E).
  rewrite E, (lw_zero _ _ _ L). replace (radd r0 v) with v by ring. exact Hv.
Qed.

Lemma sparse_eval_total (HT : total_ops O) (HU : forall a e, exists c, upow O a e = Ok c) m x :
  exists r, sparse_eval O m x = Ok r.
Proof.
  unfold sparse_eval. generalize (zero O) as s. induction m as [|[k c] m IH]; intros s; simpl; [eauto|].
  destruct (HU x k) as (w & ->). cbn [bind]. destruct (to_mul _ HT c w) as (p & ->). cbn [bind].
  destruct (to_add _ HT s p) as (s' & ->). cbn [bind]. apply IH.
Qed.

(** ** Linear maps computed by rebuilding *)

Definition ocoef (o : option (N * T)) : poly R :=
  match o with None => pzero | Some (k, v) => pmono (den v) (N.to_nat k) end.

Lemma somes_coef (f : N * T -> res (option (N * T))) (H : poly R -> poly R) m os :
  (forall p q, peq p q -> peq (H p) (H q)) -> peq (H pzero) pzero ->
  (forall p q, peq (H (padd p q)) (padd (H p) (H q))) ->
  (forall k v o, In (k, v) m -> f (k, v) = Ok o -> peq (ocoef o) (H (pmono (den v) (N.to_nat k)))) ->
  mapM f m = Ok os -> peq (sc (somes os)) (H (sc m)).
Proof.
  intros He H0 Ha. revert os. induction m as [|[k v] m IH]; intros os Hf Hos; simpl in Hos; inv_ok.
  - intros d. simpl. rewrite scoef_nil. symmetry. rewrite (He (sc []) pzero (fun i => scoef_nil R den i) d). apply H0.
  - rename E into Ef, E0 into Em. assert (E1 : peq (sc (somes (v0 :: v1))) (padd (ocoef v0) (sc (somes v1)))).
    { intros d. unfold padd. destruct v0 as [[k' v']|]; simpl; [reflexivity|]. unfold pzero. ring. }
    assert (IH' : peq (sc (somes v1)) (H (sc m))).
    { apply IH; [|exact Em]. intros k1 w1 o1 Hi Hf1. apply (Hf k1 w1 o1); [right; exact Hi|exact Hf1]. }
    intros d. rewrite E1. rewrite (He _ _ (scoef_cons R den k v m) d), Ha. unfold padd. rewrite IH'. f_equal.
    apply (Hf k v v0); [left; reflexivity|assumption].
Qed.

Definition deriv_f (kv : N * T) : res (option (N * T)) :=
  if negb (is_zero O (snd kv)) && negb (fst kv =? 0)%N then
    k <- usub (n_chk O) (fst kv) 1 ;;
    n <- expect (of_exact O (fst kv)) ;;
    v <- mul O (snd kv) n ;; Ok (Some (k, v))
  else Ok None.

Lemma deriv_rebuild m : sparse_derivative O m = foldM (rebuild_step deriv_f) [] m.
Proof.
  unfold sparse_derivative. apply foldM_ext. intros s kv _. unfold rebuild_step, deriv_f.
  destruct (negb (is_zero O (snd kv)) && negb (fst kv =? 0)%N); [|reflexivity].
  destruct (usub (n_chk O) (fst kv) 1); cbn [bind]; try reflexivity.
  destruct (expect (of_exact O (fst kv))); cbn [bind]; try reflexivity.
  destruct (mul O (snd kv) a0); reflexivity.
Qed.

Lemma deriv_f_key kv o : deriv_f kv = Ok o ->
  match o with None => True | Some (k, v) => (fst kv = k + 1)%N end.
Proof.
  unfold deriv_f. destruct (negb (is_zero O (snd kv)) && negb (fst kv =? 0)%N) eqn:E; intros H; inv_ok; [|exact Logic.I].
  apply andb_true_iff in E. destruct E as [_ E]. rewrite usub_le in E0 by lia. inv_ok. lia.
Qed.

Lemma swf_somes (f : N * T -> res (option (N * T))) m os :
  swf m ->
  (forall a b x y, In a m -> In b m -> key_lt a b -> f a = Ok (Some x) -> f b = Ok (Some y) -> key_lt x y) ->
  (forall a x, In a m -> f a = Ok (Some x) -> (fst x <= USIZE_MAX)%N) ->
  mapM f m = Ok os -> swf (somes os).
Proof.
  intros Hm Hmono Hb H. split; [eapply rebuild_sorted; [apply Hm|exact Hmono|exact H]|].
  rewrite Forall_forall. intros x Hx. destruct (somes_mapM_in f m os x H Hx) as (kv & Hi & E). eauto.
Qed.

Lemma rebuild_nil (f : N * T -> res (option (N * T))) m r : swf m ->
  (forall a b x y, In a m -> In b m -> key_lt a b -> f a = Ok (Some x) -> f b = Ok (Some y) -> key_lt x y) ->
  foldM (rebuild_step f) [] m = Ok r <-> exists os, mapM f m = Ok os /\ r = somes os.
Proof.
  intros Hm Hmono. rewrite rebuild_spec; [|apply Hm|exact Hmono|constructor|intros ? ? ? []]. cbn [app].
  rewrite bind_ok_iff. split; intros (os & E & H); exists os; (split; [exact E|]); [inv_ok; reflexivity|subst; reflexivity].
Qed.

Lemma rebuild_returns (f : N * T -> res (option (N * T))) m : swf m ->
  (forall a b x y, In a m -> In b m -> key_lt a b -> f a = Ok (Some x) -> f b = Ok (Some y) -> key_lt x y) ->
  (exists r, foldM (rebuild_step f) [] m = Ok r) <-> forall kv, In kv m -> exists o, f kv = Ok o.
Proof.
  intros Hm Hmono. rewrite <- Forall_forall. rewrite <- mapM_ok_iff. split.
  - intros (r & H). apply rebuild_nil in H; [|assumption..]. destruct H as (os & E & _). eauto.
  - intros (os & E). exists (somes os). apply rebuild_nil; eauto.
Qed.

Lemma deriv_mono (m : bmap T) : forall a b x y, In a m -> In b m -> key_lt a b -> deriv_f a = Ok (Some x) -> deriv_f b = Ok (Some y) -> key_lt x y.
Proof.
  intros a b [k v] [k' v'] _ _ Hl Ha Hb. apply deriv_f_key in Ha. apply deriv_f_key in Hb. unfold key_lt in *. simpl in *. lia.
Qed.

Lemma pderiv_pmono c k : peq (@pderiv R (pmono c k)) (match k with 0%nat => pzero | S k' => pmono (rmul (of_nat k) c) k' end).
Proof.
  intros d. unfold pderiv, pmono. destruct k as [|k]; [unfold pzero; simpl; ring|]. simpl Nat.eqb.
  destruct (Nat.eqb_spec d k) as [->|]; ring.
Qed.

Lemma sparse_derivative_spec m r : swf m -> sparse_derivative O m = Ok r ->
  swf r /\ peq (sc r) (pderiv (sc m)).
Proof.
  intros Hm H. rewrite deriv_rebuild in H. apply rebuild_nil in H; [|exact Hm|apply deriv_mono].
  destruct H as (os & E & ->). split.
  - eapply swf_somes; [exact Hm|apply deriv_mono| |exact E]. intros a [k v] Ha Hf. apply deriv_f_key in Hf.
    destruct Hm as [_ Hm]. rewrite Forall_forall in Hm. specialize (Hm _ Ha). simpl in *. lia.
  - eapply (somes_coef deriv_f pderiv); [| | | |exact E].
    + intros p q Hp d. unfold pderiv. rewrite Hp. reflexivity.
    + intros d. unfold pderiv, pzero. ring.
    + intros p q d. unfold pderiv, padd. ring.
    + intros k v o Hi Hf. eapply peq_trans; [|apply peq_sym, pderiv_pmono]. unfold deriv_f in Hf. cbn [fst snd] in Hf.
      destruct (is_zero O v) eqn:Ez; cbn [negb andb] in Hf.
      * inv_ok. intros d. simpl. unfold pzero. rewrite (is_zero_den O R den L v Ez).
        destruct (N.to_nat k) as [|k']; [reflexivity|]. unfold pmono. destruct (Nat.eqb d k'); ring.
      * destruct (N.eqb_spec k 0) as [->|Hk]; cbn [negb] in Hf; [inv_ok; apply peq_refl|].
        rewrite usub_le in Hf by lia. cbn [bind] in Hf. inv_ok. unfold expect in E0.
        destruct (of_exact O k) as [n|] eqn:En; [|discriminate]. inv_ok.
        assert (Hkm : (k <= USIZE_MAX)%N).
        { destruct Hm as [_ Hm]. rewrite Forall_forall in Hm. apply (Hm _ Hi). }
        simpl ocoef. destruct (N.to_nat k) as [|k'] eqn:Ek; [lia|]. replace (N.to_nat (k - 1)) with k' by lia.
        intros d. unfold pmono. destruct (Nat.eqb d k'); [|reflexivity].
        rewrite (lw_mul _ _ _ L _ _ _ E1), (lw_exact _ _ _ L _ _ Hkm En), Ek. ring.
Qed.

Lemma sparse_derivative_returns fits (F : fits_ops O R den fits) m : swf m ->
  (exists r, sparse_derivative O m = Ok r) <->
  forall d, sc m (S d) <> r0 -> exists n, of_exact O (N.of_nat (S d)) = Some n /\ fits (rmul (of_nat (S d)) (sc m (S d))).
Proof.
  intros Hm. rewrite deriv_rebuild, (rebuild_returns deriv_f m Hm (deriv_mono m)). split.
  - intros H d Hd. rewrite scoef_get in * by apply Hm. destruct (m_get (N.of_nat (S d)) m) as [v|] eqn:Eg; [|congruence].
    pose proof (m_get_in _ _ _ Eg) as Hi. destruct (H _ Hi) as (o & Ho). unfold deriv_f in Ho. cbn [fst snd] in Ho.
    destruct (is_zero O v) eqn:Ez; [exfalso; apply Hd, (is_zero_den O R den L v Ez)|].
    destruct (N.eqb_spec (N.of_nat (S d)) 0); [lia|]. cbn [negb andb] in Ho. inv_ok. unfold expect in E0.
    destruct (of_exact O (N.of_nat (S d))) as [n'|] eqn:En; [|discriminate]. inv_ok. exists v1. split; [reflexivity|].
    destruct Hm as [_ Hm]. rewrite Forall_forall in Hm. specialize (Hm _ Hi). cbn [fst] in Hm.
    pose proof (lw_exact _ _ _ L _ _ Hm En) as Hn. rewrite Nat2N.id in Hn. rewrite <- Hn.
    replace (rmul (den v1) (den v)) with (rmul (den v) (den v1)) by ring. apply (fo_mul _ _ _ _ F). eauto.
  - intros H [k v] Hi. unfold deriv_f. cbn [fst snd]. destruct (is_zero O v) eqn:Ez; cbn [negb andb]; [eauto|].
    destruct (N.eqb_spec k 0) as [|Hk]; cbn [negb]; [eauto|]. rewrite usub_le by lia. cbn [bind].
    specialize (H (N.to_nat k - 1)%nat). replace (S (N.to_nat k - 1)) with (N.to_nat k) in H by lia.
    rewrite scoef_get, !N2Nat.id, (sorted_in_get m k v (proj1 Hm) Hi) in H by apply Hm.
    destruct (H (is_zero_false_den O R den L v Ez)) as (n & En & Hf). rewrite En. cbn [expect bind].
    destruct Hm as [_ Hm]. rewrite Forall_forall in Hm. specialize (Hm _ Hi). cbn [fst] in Hm.
    rewrite <- (lw_exact _ _ _ L _ _ Hm En) in Hf.
    replace (rmul (den n) (den v)) with (rmul (den v) (den n)) in Hf by ring. apply (fo_mul _ _ _ _ F) in Hf.
    destruct Hf as (w & ->). cbn [bind]. eauto.
Qed.

(** ** Shifts *)

Definition shl_f (n : N) (kv : N * T) : res (option (N * T)) :=
  d <- uadd (n_chk O) (fst kv) n ;; Ok (Some (d, snd kv)).
Definition shr_f (n : N) (kv : N * T) : res (option (N * T)) :=
  if (n <=? fst kv)%N then d <- usub (n_chk O) (fst kv) n ;; Ok (Some (d, snd kv)) else Ok None.

(** In the unchecked profile the new degrees have to be [usize]s. *)
Definition shl_ok (m : bmap T) (n : N) : Prop := n_chk O = true \/ Forall (fun kv => (fst kv + n <= USIZE_MAX)%N) m.

Lemma shl_f_key m n kv k v : shl_ok m n -> In kv m -> shl_f n kv = Ok (Some (k, v)) ->
  k = (fst kv + n)%N /\ v = snd kv /\ (k <= USIZE_MAX)%N.
Proof.
  intros Hs Hi H. unfold shl_f in H. inv_ok. injection H as <- <-. pose proof (uadd_le_max _ _ _ _ E).
  destruct Hs as [Hs|Hs].
  - rewrite Hs in E. apply uadd_checked_ok in E. tauto.
  - rewrite Forall_forall in Hs. specialize (Hs _ Hi). rewrite uadd_small in E by exact Hs. inv_ok. auto.
Qed.

Lemma shr_f_key n kv k v : shr_f n kv = Ok (Some (k, v)) -> fst kv = (k + n)%N /\ v = snd kv.
Proof.
  unfold shr_f. destruct (N.leb_spec n (fst kv)) as [Hl|Hl]; intros H; inv_ok; [|discriminate].
  injection H as <- <-. rewrite usub_le in E by exact Hl. inv_ok. split; [lia|reflexivity].
Qed.

Lemma sparse_shift_nonneg_l f m k : (0 <= k)%Z ->
  sparse_shift O (S f) true m k = foldM (rebuild_step (shl_f (Z.to_N k))) [] m.
Proof.
  intros Hk. cbn [sparse_shift]. destruct (Z.ltb_spec k 0); [lia|]. apply foldM_ext. intros s kv _.
  unfold rebuild_step, shl_f. destruct (uadd (n_chk O) (fst kv) (Z.to_N k)); reflexivity.
Qed.

Lemma sparse_shift_nonneg_r f m k : (0 <= k)%Z ->
  sparse_shift O (S f) false m k = foldM (rebuild_step (shr_f (Z.to_N k))) [] m.
Proof.
  intros Hk. cbn [sparse_shift]. destruct (Z.ltb_spec k 0); [lia|]. apply foldM_ext. intros s kv _.
  unfold rebuild_step, shr_f. destruct (Z.to_N k <=? fst kv)%N; [|reflexivity].
  destruct (usub (n_chk O) (fst kv) (Z.to_N k)); reflexivity.
Qed.

Lemma shl_mono m n : shl_ok m n ->
  forall a b x y, In a m -> In b m -> key_lt a b -> shl_f n a = Ok (Some x) -> shl_f n b = Ok (Some y) -> key_lt x y.
Proof.
  intros Hs a b [k v] [k' v'] Hia Hib Hl Ha Hb. apply (shl_f_key m n) in Ha; [|assumption..]. apply (shl_f_key m n) in Hb; [|assumption..].
  unfold key_lt in *. simpl in *. lia.
Qed.

Lemma shr_mono (m : bmap T) n : forall a b x y, In a m -> In b m -> key_lt a b -> shr_f n a = Ok (Some x) -> shr_f n b = Ok (Some y) -> key_lt x y.
Proof.
  intros a b [k v] [k' v'] _ _ Hl Ha Hb. apply shr_f_key in Ha. apply shr_f_key in Hb. unfold key_lt in *. simpl in *. lia.
Qed.

Lemma shl_fold_spec m n r : swf m -> shl_ok m n -> foldM (rebuild_step (shl_f n)) [] m = Ok r ->
  swf r /\ peq (sc r) (pshl (sc m) (N.to_nat n)).
Proof.
  intros Hm Hs H. apply rebuild_nil in H; [|exact Hm|apply shl_mono, Hs]. destruct H as (os & E & ->). split.
  - eapply swf_somes; [exact Hm|apply shl_mono, Hs| |exact E]. intros a [k v] Ha Hf.
    apply (shl_f_key m n a k v Hs Ha) in Hf. apply Hf.
  - eapply (somes_coef (shl_f n) (fun p => pshl p (N.to_nat n))); [| | | |exact E].
    + intros p q Hp d. unfold pshl. destruct (Nat.ltb d (N.to_nat n)); [reflexivity|apply Hp].
    + intros d. unfold pshl, pzero. destruct (Nat.ltb d (N.to_nat n)); reflexivity.
    + intros p q d. unfold pshl, padd. destruct (Nat.ltb d (N.to_nat n)); [ring|reflexivity].
    + intros k v o Hi Hf. destruct o as [[k' v']|].
      * apply (shl_f_key m n (k, v) k' v' Hs Hi) in Hf. destruct Hf as (-> & -> & _). cbn [fst snd ocoef].
        intros d. unfold pmono, pshl. destruct (Nat.ltb_spec d (N.to_nat n)).
        -- destruct (Nat.eqb_spec d (N.to_nat (k + n))); [lia|reflexivity].
        -- destruct (Nat.eqb_spec d (N.to_nat (k + n))), (Nat.eqb_spec (d - N.to_nat n) (N.to_nat k)); try lia; reflexivity.
      * unfold shl_f in Hf. inv_ok. discriminate.
Qed.

Lemma shr_fold_spec m n r : swf m -> foldM (rebuild_step (shr_f n)) [] m = Ok r ->
  swf r /\ peq (sc r) (pshr (sc m) (N.to_nat n)).
Proof.
  intros Hm H. apply rebuild_nil in H; [|exact Hm|apply shr_mono]. destruct H as (os & E & ->). split.
  - eapply swf_somes; [exact Hm|apply shr_mono| |exact E]. intros a [k v] Ha Hf. apply shr_f_key in Hf.
    destruct Hm as [_ Hm]. rewrite Forall_forall in Hm. specialize (Hm _ Ha). simpl in *. lia.
  - eapply (somes_coef (shr_f n) (fun p => pshr p (N.to_nat n))); [| | | |exact E].
    + intros p q Hp d. unfold pshr. apply Hp.
    + intros d. reflexivity.
    + intros p q d. reflexivity.
    + intros k v o Hi Hf. destruct o as [[k' v']|].
      * apply shr_f_key in Hf. destruct Hf as (Hk & ->). cbn [fst snd ocoef] in *. subst k.
        intros d. unfold pmono, pshr. destruct (Nat.eqb_spec d (N.to_nat k')), (Nat.eqb_spec (d + N.to_nat n) (N.to_nat (k' + n))); try lia; reflexivity.
      * unfold shr_f in Hf. cbn [fst] in Hf. destruct (N.leb_spec n k) as [|Hl]; [inv_ok; discriminate|].
        intros d. unfold ocoef, pzero, pshr, pmono. destruct (Nat.eqb_spec (d + N.to_nat n) (N.to_nat k)); [lia|reflexivity].
Qed.

Lemma sparse_shift_neg f (left : bool) m k : i32_shift k -> (k < 0)%Z ->
  sparse_shift O (S f) left m k = sparse_shift O f (negb left) m (- k)%Z.
Proof.
  intros Hk Hn. cbn [sparse_shift]. destruct (Z.ltb_spec k 0); [|lia]. rewrite (neg_i32_ok O k Hk). reflexivity.
Qed.

Definition shift_ok (m : bmap T) (left : bool) (k : Z) : Prop := shl_ok m (Z.to_N (if left then k else - k)%Z).

Lemma shift_nonneg_spec f (left : bool) m k r : swf m -> (0 <= k)%Z -> shift_ok m left k ->
  sparse_shift O (S f) left m k = Ok r -> swf r /\ peq (sc r) (pshift left k (sc m)).
Proof.
  intros Hm Hk Hs H. destruct left.
  - rewrite sparse_shift_nonneg_l in H by exact Hk. destruct (shl_fold_spec m _ r Hm Hs H) as [W C].
    split; [exact W|]. intros d. rewrite C. unfold pshift. destruct (Z.leb_spec 0 k); [|lia]. rewrite Z_N_nat. reflexivity.
  - rewrite sparse_shift_nonneg_r in H by exact Hk. destruct (shr_fold_spec m _ r Hm H) as [W C].
    split; [exact W|]. intros d. rewrite C. unfold pshift. rewrite Z_N_nat. destruct (Z.leb_spec 0 (- k)).
    + assert (k = 0)%Z as -> by lia. unfold pshr, pshl. simpl. rewrite Nat.add_0_r, Nat.sub_0_r. reflexivity.
    + rewrite Z.opp_involutive. reflexivity.
Qed.

Lemma sparse_shift_spec f (left : bool) m k r : swf m -> i32_shift k -> shift_ok m left k ->
  sparse_shift O (S (S f)) left m k = Ok r -> swf r /\ peq (sc r) (pshift left k (sc m)).
Proof.
  intros Hm Hk Hs H. destruct (Z.ltb_spec k 0) as [Hn|Hn]; [|eapply shift_nonneg_spec; eassumption].
  rewrite sparse_shift_neg in H by assumption. apply shift_nonneg_spec in H; [|exact Hm|lia|].
  - destruct H as [W C]. split; [exact W|]. eapply peq_trans; [exact C|apply pshift_neg].
  - unfold shift_ok in *. destruct left; cbn [negb] in *; rewrite ?Z.opp_involutive in *; exact Hs.
Qed.

(** It returns whenever all new degrees are [usize]s (unchecked: always). *)
Lemma sparse_shift_returns f (left : bool) m k : swf m -> i32_shift k ->
  Forall (fun kv => (fst kv + Z.to_N (if left then k else - k)%Z <= USIZE_MAX)%N) m ->
  exists r, sparse_shift O (S (S f)) left m k = Ok r.
Proof.
  intros Hm Hk Hf.
  assert (HN : forall g (l : bool) j, (0 <= j)%Z -> Forall (fun kv => (fst kv + Z.to_N (if l then j else - j)%Z <= USIZE_MAX)%N) m ->
             exists r, sparse_shift O (S g) l m j = Ok r).
  { intros g l j Hj Hf'. destruct l.
    - rewrite sparse_shift_nonneg_l by exact Hj.
      rewrite (rebuild_returns (shl_f (Z.to_N j)) m Hm (shl_mono m _ (or_intror Hf'))).
      intros kv Hi. rewrite Forall_forall in Hf'. unfold shl_f. rewrite uadd_small by (apply Hf', Hi). simpl. eauto.
    - rewrite sparse_shift_nonneg_r by exact Hj. rewrite (rebuild_returns (shr_f (Z.to_N j)) m Hm (shr_mono m _)).
      intros kv Hi. unfold shr_f. destruct (N.leb_spec (Z.to_N j) (fst kv)); [|eauto]. rewrite usub_le by assumption. simpl. eauto. }
  destruct (Z.ltb_spec k 0); [|apply HN; assumption].
  rewrite sparse_shift_neg by assumption. apply HN; [lia|]. destruct left; cbn [negb]; rewrite ?Z.opp_involutive; exact Hf.
Qed.

Lemma sparse_shift_min_checked f (left : bool) m : n_chk O = true -> sparse_shift O (S f) left m I32_MIN = Panic POverflow.
Proof. intros H. cbn [sparse_shift]. rewrite H. reflexivity. Qed.

Lemma sparse_shift_min_unchecked f : n_chk O = false -> forall (left : bool) m, sparse_shift O f left m I32_MIN = Fuel.
Proof.
  intros H. induction f as [|f IH]; intros left m; [reflexivity|]. cbn [sparse_shift]. rewrite H.
  change (I32_MIN <? 0)%Z with true. cbv iota. change (neg_i32 false I32_MIN) with (Ok I32_MIN). cbn [bind]. apply IH.
Qed.

(** ** Integral *)

Definition integ_f (kv : N * T) : res (option (N * T)) :=
  k <- uadd (n_chk O) (fst kv) 1 ;; n <- expect (of_exact O k) ;; v <- div O (snd kv) n ;; Ok (Some (k, v)).

Definition integ_ok (m : bmap T) : Prop := n_chk O = true \/ Forall (fun kv => (fst kv < USIZE_MAX)%N) m.

Lemma integ_rebuild m : sparse_integral O m = foldM (rebuild_step integ_f) [] m.
Proof.
  unfold sparse_integral. apply foldM_ext. intros s kv _. unfold rebuild_step, integ_f.
  destruct (uadd (n_chk O) (fst kv) 1); cbn [bind]; try reflexivity.
  destruct (expect (of_exact O a)); cbn [bind]; try reflexivity. destruct (div O (snd kv) a0); reflexivity.
Qed.

Lemma integ_f_key m kv x : integ_ok m -> In kv m -> integ_f kv = Ok (Some x) ->
  fst x = (fst kv + 1)%N /\ (fst x <= USIZE_MAX)%N /\
  exists n, den n = of_nat (N.to_nat (fst x)) /\ div O (snd kv) n = Ok (snd x).
Proof.
  intros Hs Hi H. unfold integ_f in H. inv_ok. injection H as <-. cbn [fst snd]. pose proof (uadd_le_max _ _ _ _ E) as Hle.
  assert (Ek : v = (fst kv + 1)%N).
  { destruct Hs as [Hs|Hs].
    - rewrite Hs in E. apply uadd_checked_ok in E. tauto.
    - rewrite Forall_forall in Hs. specialize (Hs _ Hi). cbn beta in Hs. rewrite uadd_small in E by lia. inv_ok. auto. }
  split; [exact Ek|]. split; [exact Hle|]. unfold expect in E0. destruct (of_exact O v) as [n|] eqn:En; [|discriminate].
  inv_ok. exists v0. split; [apply (lw_exact _ _ _ L _ _ Hle En)|exact E1].
Qed.

Lemma integ_mono m : integ_ok m ->
  forall a b x y, In a m -> In b m -> key_lt a b -> integ_f a = Ok (Some x) -> integ_f b = Ok (Some y) -> key_lt x y.
Proof.
  intros Hs a b x y Hia Hib Hl Ha Hb. apply (integ_f_key m) in Ha; [|assumption..]. apply (integ_f_key m) in Hb; [|assumption..].
  unfold key_lt in *. lia.
Qed.

Lemma integ_f_some kv o : integ_f kv = Ok o -> exists x, o = Some x.
Proof. unfold integ_f. intros H. inv_ok. eauto. Qed.

Lemma mapM_in {A B} (f : A -> res B) l r x : mapM f l = Ok r -> In x l -> exists y, f x = Ok y /\ In y r.
Proof.
  revert r. induction l as [|a l IH]; intros r H Hi; simpl in H; [destruct Hi|]. inv_ok. destruct Hi as [->|Hi].
  - exists v. simpl. auto.
  - destruct (IH _ E0 Hi) as (y & A1 & A2). exists y. simpl. auto.
Qed.

Lemma in_somes {A} (l : list (option A)) x : In (Some x) l -> In x (somes l).
Proof.
  induction l as [|[y|] l IH]; simpl; intros H; [destruct H| |].
  - destruct H as [H|H]; [injection H as ->|]; auto.
  - destruct H as [H|H]; [discriminate|auto].
Qed.

Lemma sparse_integral_spec m r : swf m -> integ_ok m -> sparse_integral O m = Ok r ->
  swf r /\ sc r 0%nat = r0 /\
  forall d, match m_get (N.of_nat d) m with
            | None => sc r (S d) = r0
            | Some c => exists n q, den n = of_nat (S d) /\ div O c n = Ok q /\ sc r (S d) = den q
            end.
Proof.
  intros Hm Hs H. rewrite integ_rebuild in H. apply rebuild_nil in H; [|exact Hm|apply integ_mono, Hs].
  destruct H as (os & E & ->).
  assert (W : swf (somes os)).
  { eapply swf_somes; [exact Hm|apply integ_mono, Hs| |exact E]. intros a x Ha Hf. apply (integ_f_key m a x Hs Ha Hf). }
  split; [exact W|]. split.
  - apply scoef_notin. intros Hi. apply in_map_iff in Hi. destruct Hi as (x & Ex & Hi).
    destruct (somes_mapM_in integ_f m os x E Hi) as (kv & Hk & Hf). apply (integ_f_key m kv x Hs Hk) in Hf. lia.
  - intros d. destruct (m_get (N.of_nat d) m) as [c|] eqn:Eg.
    + apply m_get_in in Eg. destruct (mapM_in _ _ _ _ E Eg) as (o & Ho & Hin). destruct (integ_f_some _ _ Ho) as ([k q] & ->).
      apply in_somes in Hin. destruct (integ_f_key m _ _ Hs Eg Ho) as (K1 & K2 & n & Hn & Hq). cbn [fst snd] in *.
      exists n, q. rewrite K1 in Hn. replace (N.to_nat (N.of_nat d + 1)) with (S d) in Hn by lia.
      split; [exact Hn|]. split; [exact Hq|]. rewrite scoef_get by apply W.
      replace (N.of_nat (S d)) with k by lia. rewrite (sorted_in_get _ k q (proj1 W) Hin). reflexivity.
    + apply scoef_notin. intros Hi. apply in_map_iff in Hi. destruct Hi as (x & Ex & Hi).
      destruct (somes_mapM_in integ_f m os x E Hi) as (kv & Hk & Hf). apply (integ_f_key m kv x Hs Hk) in Hf.
      apply m_get_notin in Eg. apply Eg. replace (N.of_nat d) with (fst kv) by lia. apply in_map, Hk.
Qed.

(** With exact division: the fundamental theorem. *)
Lemma sparse_integral_exact (X : exact_div O R den) (C : char0 R) m r : swf m -> integ_ok m -> sparse_integral O m = Ok r ->
  sc r 0%nat = r0 /\ peq (pderiv (sc r)) (sc m).
Proof.
  intros Hm Hs H. destruct (sparse_integral_spec m r Hm Hs H) as (_ & H0 & Hd). split; [exact H0|].
  intros d. unfold pderiv. specialize (Hd d). rewrite (scoef_get R den m) by apply Hm. destruct (m_get (N.of_nat d) m) as [c|].
  - destruct Hd as (n & q & Hn & Hq & ->).
    assert (Hz : is_zero O n = false).
    { destruct (is_zero O n) eqn:E; [|reflexivity]. apply (is_zero_den O R den L) in E. rewrite Hn in E. destruct (C _ E). }
    destruct (X c n Hz) as (q' & Hq' & He). assert (q' = q) by congruence. subst q'. rewrite <- He, Hn. ring.
  - rewrite Hd. ring.
Qed.

(** It returns whenever every [k + 1] is a representable [usize] and the divisions return. *)
Lemma sparse_integral_returns m : swf m -> Forall (fun kv => (fst kv < USIZE_MAX)%N) m ->
  Forall (fun kv => exists n q, of_exact O (fst kv + 1) = Some n /\ div O (snd kv) n = Ok q) m ->
  exists r, sparse_integral O m = Ok r.
Proof.
  intros Hm Hs Hf. rewrite integ_rebuild. apply rebuild_returns; [exact Hm|apply integ_mono; right; exact Hs|].
  intros kv Hi. rewrite Forall_forall in *. destruct (Hf _ Hi) as (n & q & En & Eq). specialize (Hs _ Hi). cbn beta in Hs.
  unfold integ_f. rewrite uadd_small by lia. cbn [bind]. rewrite En. cbn [expect bind]. rewrite Eq. cbn [bind]. eauto.
Qed.

(** ** Construction *)

Lemma scoef_fresh_insert m k v : StronglySorted key_lt m -> Forall (fun kv => (k < fst kv)%N) m ->
  peq (sc (m_insert k v m)) (padd (pmono (den v) (N.to_nat k)) (sc m)).
Proof.
  intros Hs Hf d. rewrite scoef_insert by exact Hs. unfold padd, pmono. destruct (Nat.eqb_spec d (N.to_nat k)) as [->|]; [|ring].
  rewrite scoef_notin; [ring|]. rewrite N2Nat.id. intros Hi. apply in_map_iff in Hi. destruct Hi as (x & Ex & Hi).
  rewrite Forall_forall in Hf. specialize (Hf _ Hi). cbn beta in Hf. lia.
Qed.

Lemma from_vec_loop_spec l : forall i m, swf m -> (N.of_nat (i + length l) <= USIZE_MAX)%N ->
  Forall (fun kv => (N.of_nat (length l) <= fst kv)%N) m ->
  exists r, from_vec_loop O (N.of_nat (i + length l) - 1) i l m = Ok r /\ swf r /\
    peq (sc r) (padd (dcoef R den l) (sc m)) /\
    (Forall (fun kv => is_zero O (snd kv) = false) m -> Forall (fun kv => is_zero O (snd kv) = false) r).
Proof.
  induction l as [|v l IH]; intros i m Hm Hb Hf; cbn [from_vec_loop].
  - exists m. split; [reflexivity|]. split; [exact Hm|]. split; [|auto]. intros d. unfold padd. rewrite dcoef_nil. ring.
  - simpl length in *. replace (i + S (length l))%nat with (S i + length l)%nat in * by lia.
    assert (Hd : peq (dcoef R den (v :: l)) (padd (pmono (den v) (length l)) (dcoef R den l))).
    { unfold dcoef. simpl map. eapply peq_trans; [apply be_coef_cons_pmono|]. rewrite map_length. apply peq_refl. }
    assert (Hf1 : Forall (fun kv => (N.of_nat (length l) <= fst kv)%N) m)
      by (eapply Forall_impl; [|exact Hf]; cbn beta; intros; lia).
    destruct (is_zero O v) eqn:Ez.
    + destruct (IH (S i) m Hm Hb Hf1) as (r & E & W & C & Z). exists r. split; [exact E|]. split; [exact W|]. split; [|exact Z].
      intros d. rewrite C. unfold padd at 1 2. rewrite Hd. unfold padd, pmono. rewrite (is_zero_den O R den L v Ez).
      destruct (Nat.eqb d (length l)); ring.
    + rewrite usub_le by lia. cbn [bind]. replace (N.of_nat (S i + length l) - 1 - N.of_nat i)%N with (N.of_nat (length l)) by lia.
      destruct (IH (S i) (m_insert (N.of_nat (length l)) v m)) as (r & E & W & C & Z).
      * apply m_insert_wf; [exact Hm|lia].
      * exact Hb.
      * rewrite Forall_forall in *. intros kv Hi. apply m_insert_in in Hi. destruct Hi as [->|Hi]; [simpl; lia|apply Hf1, Hi].
      * exists r. split; [exact E|]. split; [exact W|]. split.
        -- intros d. rewrite C. unfold padd at 1 2. rewrite Hd, scoef_fresh_insert; [|apply Hm|].
           ++ unfold padd. rewrite Nat2N.id. ring.
           ++ eapply Forall_impl; [|exact Hf]. cbn beta. intros; lia.
        -- intros Hz. apply Z. rewrite Forall_forall in *. intros kv Hi. apply m_insert_in in Hi. destruct Hi as [->|Hi]; [exact Ez|auto].
Qed.

Lemma sparse_from_vec_spec l : vec_ok O l ->
  exists r, sparse_from_vec O l = Ok r /\ swf r /\ peq (sc r) (dcoef R den l) /\ Forall (fun kv => is_zero O (snd kv) = false) r.
Proof.
  intros Hv. pose proof (lw_cap _ _ _ L). unfold vec_ok in Hv. unfold sparse_from_vec. destruct l as [|v l].
  - exists []. split; [reflexivity|]. split; [apply swf_nil|]. split; [|constructor]. intros d. rewrite dcoef_nil. apply scoef_nil.
  - rewrite usub_le by (unfold len; simpl length; lia). cbn [bind].
    destruct (from_vec_loop_spec (v :: l) 0 [] swf_nil) as (r & E & W & C & Z).
    + change (0 + length (v :: l))%nat with (length (v :: l)). change (N.of_nat (length (v :: l))) with (len (v :: l)).
      unfold USIZE_MAX. lia.
    + constructor.
    + exists r. split; [exact E|]. split; [exact W|]. split; [|apply Z; constructor]. intros d. rewrite C. unfold padd.
      rewrite scoef_nil. ring.
Qed.

(** ** Term updates *)

Lemma sparse_add_term_spec m c d r : swf m -> (d <= USIZE_MAX)%N -> sparse_add_term O m c d = Ok r ->
  swf r /\ peq (sc r) (padd (sc m) (pmono (den c) (N.to_nat d))).
Proof.
  intros Hm Hd H. unfold sparse_add_term in H. destruct (is_zero O c) eqn:Ez.
  - inv_ok. split; [exact Hm|]. intros e. unfold padd, pmono. rewrite (is_zero_den O R den L c Ez).
    destruct (Nat.eqb e (N.to_nat d)); ring.
  - destruct (m_upsert_spec R den m d (Ok c) (fun v => add O v c) r (fun x => radd x (den c)) Hm Hd) as [W C].
    + intros v Hv. inv_ok. ring.
    + intros x v Hv. apply (lw_add _ _ _ L _ _ _ Hv).
    + exact H.
    + split; [exact W|]. intros e. rewrite C. unfold padd, pmono. destruct (Nat.eqb e (N.to_nat d)); [reflexivity|ring].
Qed.

Lemma scoef_rep m d : swf m -> exists x, den x = sc m d.
Proof.
  intros Hm. rewrite scoef_get by apply Hm. destruct (m_get (N.of_nat d) m); [eauto|].
  exists (zero O). apply (lw_zero _ _ _ L).
Qed.

Lemma sparse_add_term_returns fits (F : fits_ops O R den fits) m c d : swf m ->
  (exists r, sparse_add_term O m c d = Ok r) <-> fits (radd (sc m (N.to_nat d)) (den c)).
Proof.
  intros Hm. unfold sparse_add_term. destruct (is_zero O c) eqn:Ez.
  - split; [intros _|eauto]. destruct (scoef_rep m (N.to_nat d) Hm) as (x & <-). rewrite (is_zero_den O R den L c Ez).
    replace (radd (den x) r0) with (den x) by ring. apply (fo_den _ _ _ _ F).
  - rewrite (m_upsert_returns m d (Ok c) (fun v => add O v c)). rewrite scoef_get, N2Nat.id by apply Hm. destruct (m_get d m) as [x|].
    + apply (fo_add _ _ _ _ F).
    + split; [intros _|eauto]. replace (radd r0 (den c)) with (den c) by ring. apply (fo_den _ _ _ _ F).
Qed.

Lemma sparse_try_sub_term_spec m c d r e : swf m -> (d <= USIZE_MAX)%N -> sparse_try_sub_term O m c d = Ok (r, e) ->
  (e = None /\ swf r /\ peq (sc r) (psub (sc m) (pmono (den c) (N.to_nat d))) /\
     (den c = r0 \/ can_negate O = true \/ m_get d m <> None)) \/
  (e = Some CanNotNegate /\ r = m /\ can_negate O = false /\ m_get d m = None /\ den c <> r0).
Proof.
  intros Hm Hd H. unfold sparse_try_sub_term in H. destruct (is_zero O c) eqn:Ez.
  - inv_ok. injection H as <- <-. left. split; [reflexivity|]. split; [exact Hm|].
    pose proof (is_zero_den O R den L c Ez) as Hc. split; [|auto]. intros i. unfold psub, pmono. rewrite Hc.
    destruct (Nat.eqb i (N.to_nat d)); ring.
  - pose proof (is_zero_false_den O R den L c Ez) as Hc. destruct (m_get d m) as [x|] eqn:Eg.
    + inv_ok. injection H as <- <-. left. split; [reflexivity|]. split; [apply m_insert_wf; assumption|].
      split; [|right; right; discriminate]. intros i. rewrite scoef_insert by apply Hm. unfold psub, pmono.
      destruct (Nat.eqb_spec i (N.to_nat d)) as [->|]; [|ring]. rewrite (scoef_get R den m), N2Nat.id, Eg by apply Hm.
      apply (lw_sub _ _ _ L _ _ _ E).
    + destruct (can_negate O) eqn:En; cbn [negb] in H.
      * inv_ok. injection H as <- <-. left. split; [reflexivity|]. split; [apply m_insert_wf; assumption|].
        split; [|auto]. intros i. rewrite scoef_insert by apply Hm. unfold psub, pmono.
        destruct (Nat.eqb_spec i (N.to_nat d)) as [->|]; [|ring]. rewrite (scoef_get R den m), N2Nat.id, Eg by apply Hm.
        rewrite (lw_sub _ _ _ L _ _ _ E), (lw_zero _ _ _ L). reflexivity.
      * inv_ok. injection H as <- <-. right. auto.
Qed.

Lemma sparse_try_sub_term_returns fits (F : fits_ops O R den fits) m c d : swf m ->
  (exists r e, sparse_try_sub_term O m c d = Ok (r, e)) <->
  (fits (rsub (sc m (N.to_nat d)) (den c)) \/ (can_negate O = false /\ m_get d m = None)).
Proof.
  intros Hm. unfold sparse_try_sub_term. rewrite scoef_get, N2Nat.id by apply Hm. destruct (is_zero O c) eqn:Ez.
  - split; [intros _|eauto]. left. rewrite (is_zero_den O R den L c Ez). destruct (m_get d m) as [x|].
    + replace (rsub (den x) r0) with (den x) by ring. apply (fo_den _ _ _ _ F).
    + replace (rsub r0 r0) with (@r0 R) by ring. apply (fits_zero O R den L fits F).
  - destruct (m_get d m) as [x|].
    + split.
      * intros (r & e & H). inv_ok. left. apply (fo_sub _ _ _ _ F). eauto.
      * intros [H|[_ H]]; [|discriminate]. apply (fo_sub _ _ _ _ F) in H. destruct H as (y & ->). simpl. eauto.
    + destruct (can_negate O); cbn [negb].
      * split.
        -- intros (r & e & H). inv_ok. left. rewrite <- (lw_zero _ _ _ L). apply (fo_sub _ _ _ _ F). eauto.
        -- intros [H|[H _]]; [|discriminate]. rewrite <- (lw_zero _ _ _ L) in H. apply (fo_sub _ _ _ _ F) in H.
           destruct H as (y & ->). simpl. eauto.
      * split; [auto|eauto].
Qed.

(** ** from_terms *)

Lemma sparse_from_terms_gen ts : forall m r, swf m -> Forall (fun t => (snd t <= USIZE_MAX)%N) ts ->
  foldM (fun m ct => sparse_add_term O m (fst ct) (snd ct)) m ts = Ok r ->
  swf r /\ peq (sc r) (padd (sc m) (terms_coef (dterms R den ts))).
Proof.
  induction ts as [|[c d] ts IH]; intros m r Hm Hb H; simpl in H; inv_ok.
  - split; [exact Hm|]. intros i. unfold padd. simpl. unfold pzero. ring.
  - inversion Hb as [|? ? Hd Hb']; subst. destruct (sparse_add_term_spec m c d v Hm Hd E) as [W1 C1].
    destruct (IH v r W1 Hb' H) as [W C]. split; [exact W|]. intros i. rewrite C. unfold padd. rewrite C1.
    unfold padd. simpl. unfold padd. ring.
Qed.

Lemma sparse_from_terms_spec ts r : Forall (fun t => (snd t <= USIZE_MAX)%N) ts -> sparse_from_terms O ts = Ok r ->
  swf r /\ peq (sc r) (terms_coef (dterms R den ts)).
Proof.
  intros Hb H. destruct (sparse_from_terms_gen ts [] r swf_nil Hb H) as [W C]. split; [exact W|].
  intros i. rewrite C. unfold padd. rewrite scoef_nil. ring.
Qed.

Lemma sparse_from_terms_total (HT : total_ops O) ts : exists r, sparse_from_terms O ts = Ok r.
Proof.
  unfold sparse_from_terms. generalize (@nil (N * T)) as m. induction ts as [|[c d] ts IH]; intros m; simpl; [eauto|].
  assert (E : exists r, sparse_add_term O m c d = Ok r).
  { unfold sparse_add_term. destruct (is_zero O c); [eauto|]. unfold m_upsert. destruct (m_get d m) as [x|]; simpl; [|eauto].
    destruct (to_add _ HT x c) as (y & ->). simpl. eauto. }
  destruct E as (r & ->). cbn [bind]. apply IH.
Qed.

(** ** Sub<Polynomial<N>> *)

Lemma sparse_sub_dense_spec a b r : swf a -> vec_ok O b -> sparse_sub_dense O a b = Ok r ->
  swf r /\ peq (sc r) (psub (sc a) (dcoef R den b)).
Proof.
  intros Ha Hv H. unfold sparse_sub_dense in H. inv_ok.
  destruct (dense_terms_spec O R den L b) as (ts & E1 & Hl & _). assert (v = ts) by congruence. subst v.
  assert (Hts : Forall (fun ct => (snd ct <= USIZE_MAX)%N) ts).
  { rewrite Forall_forall. intros [c d] Hi. assert (I : In (den c, d) (dterms R den ts)) by (apply in_map_iff; exists (c, d); auto).
    apply (is_listing_in _ _ _ _ Hl) in I. destruct I as [I1 I2].
    pose proof (lw_cap _ _ _ L). unfold vec_ok, len in Hv. simpl. destruct (N.leb_spec d USIZE_MAX) as [|Hgt]; [assumption|].
    exfalso. apply I1. rewrite <- I2. apply dcoef_overflow. unfold USIZE_MAX in Hgt. lia. }
  destruct (fold_upsert_spec R den (fun ct => Ok (snd ct)) (fun ct => neg O (fst ct)) (fun ct v => sub O v (fst ct))
     snd (fun ct => ropp (den (fst ct))) ts a r Ha) as [W C].
  - eapply Forall_impl; [|exact Hts]. intros ct Hd. split; [|split].
    + intros d Ed. inv_ok. auto.
    + intros v Hvv. apply (lw_neg _ _ _ L _ _ Hvv).
    + intros x v Hvv. rewrite (lw_sub _ _ _ L _ _ _ Hvv). ring.
  - exact H.
  - split; [exact W|]. destruct Hl as (_ & _ & Hl). intros d. rewrite C. unfold padd, psub. rewrite <- Hl.
    assert (E2 : peq (terms_coef (addends R snd (fun ct => ropp (den (fst ct))) ts)) (popp (terms_coef (dterms R den ts)))).
    { intros i. rewrite <- terms_coef_opp. unfold addends, dterms. rewrite map_map. reflexivity. }
    rewrite E2. unfold popp. ring.
Qed.

End SparseCalc.
