(** Exact integer arithmetic with a bounded range: when powers return. *)

From Coq Require Import List NArith ZArith Lia Bool Arith.
From Coq Require Import ZifyBool ZifyNat ZifyN.
From Verif Require Import Base Num Spec SpecFacts Laws Terms Dense DenseFacts DenseArith DenseMul DenseMulInt DenseCalc.
From Verif Require Import Sparse SparseFacts SparseArith BoundedZ.
Import ListNotations.
Local Open Scope Z_scope.

(** [s] is the sum of the absolute values of the coefficients of [p]. *)
Definition abs_sum (p : poly Z_ring) (s : Z) : Prop := @is_value Z_ring (pabs p) 1 s.

Lemma sumn_le (f g : nat -> Z) n : (forall i, (i < n)%nat -> f i <= g i) -> @sumn Z_ring f n <= @sumn Z_ring g n.
Proof.
  induction n as [|n IH]; intros H; simpl; [lia|].
  pose proof (IH ltac:(intros; apply H; lia)). pose proof (H n ltac:(lia)). simpl in *. lia.
Qed.

Lemma rpow_1 n : @rpow Z_ring 1 n = 1.
Proof. induction n as [|n IH]; [reflexivity|]. cbn [rpow]. rewrite IH. reflexivity. Qed.

Lemma value_le (p q : poly Z_ring) v w : (forall d, p d <= q d) -> is_value p 1 v -> is_value q 1 w -> v <= w.
Proof.
  intros H (n & Hn & ->) (m & Hm & ->).
  assert (E : forall (f : poly Z_ring) k l, (k <= l)%nat -> (forall i, (k <= i)%nat -> f i = r0) ->
    @sumn Z_ring (fun i => @rmul Z_ring (f i) (@rpow Z_ring 1 i)) k = @sumn Z_ring (fun i => @rmul Z_ring (f i) (@rpow Z_ring 1 i)) l).
  { intros f k l Hkl Hf. symmetry. apply (@sumn_extend Z_ring); [exact Hkl|]. intros i Hi _. rewrite Hf by exact Hi. reflexivity. }
  rewrite (E p n (Nat.max n m)) by (auto; lia). rewrite (E q m (Nat.max n m)) by (auto; lia).
  apply sumn_le. intros i _. rewrite rpow_1. cbn [rmul Z_ring]. specialize (H i). lia.
Qed.

Lemma coef_le_value (q : poly Z_ring) w d : (forall i, 0 <= q i) -> is_value q 1 w -> q d <= w.
Proof.
  intros Hq Hw. pose proof (@is_value_pmono Z_ring (q d) d 1) as K. rewrite rpow_1 in K. cbn [rmul Z_ring] in K.
  rewrite Z.mul_1_r in K. eapply value_le; [|exact K|exact Hw]. intros i. unfold pmono.
  destruct (Nat.eqb_spec i d) as [->|]; [lia|apply Hq].
Qed.

Lemma abs_sumn (f : nat -> Z) n : Z.abs (@sumn Z_ring f n) <= @sumn Z_ring (fun i => Z.abs (f i)) n.
Proof. induction n as [|n IH]; simpl; [lia|]. simpl in *. lia. Qed.

Lemma pabs_pmul (p q : poly Z_ring) d : pabs (pmul p q) d <= pmul (pabs p) (pabs q) d.
Proof.
  unfold pabs at 1, pmul at 1. etransitivity; [apply abs_sumn|]. apply Z.eq_le_incl. apply (@sumn_ext Z_ring).
  intros i _. unfold pabs. cbn [rmul Z_ring]. apply Z.abs_mul.
Qed.

Lemma abs_sum_mul p q r s u : abs_sum p s -> abs_sum q u -> peq r (pmul p q) ->
  (forall d, pmul (pabs p) (pabs q) d <= s * u) /\ forall v, abs_sum r v -> v <= s * u.
Proof.
  intros Hp Hq Hr. pose proof (@is_value_pmul Z_ring _ _ _ _ _ Hp Hq) as K. cbn [rmul Z_ring] in K. split.
  - intros d. apply coef_le_value; [|exact K]. intros i. apply pmul_abs_nonneg.
  - intros v Hv. eapply value_le; [|exact Hv|exact K]. intros d. unfold pabs at 1. rewrite Hr. apply pabs_pmul.
Qed.

Lemma abs_sum_ext p q s : peq p q -> abs_sum p s -> abs_sum q s.
Proof. intros H. apply is_value_ext. intros d. unfold pabs. rewrite (H d). reflexivity. Qed.

Lemma abs_sum_pos p s d : abs_sum p s -> p d <> 0 -> 1 <= s.
Proof.
  intros H Hd. pose proof (coef_le_value (pabs p) s d ltac:(intros i; unfold pabs; lia) H) as K. unfold pabs in K. lia.
Qed.
Lemma abs_sum_nonneg p s : abs_sum p s -> 0 <= s.
Proof. intros H. pose proof (coef_le_value (pabs p) s O ltac:(intros i; unfold pabs; lia) H) as K. unfold pabs in K. lia. Qed.

Lemma dabs_sum {T} (den : T -> Z) l : exists s, abs_sum (dcoef Z_ring den l) s.
Proof.
  eexists. exists (length l). split; [|reflexivity]. intros i Hi. unfold pabs. rewrite dcoef_overflow by lia. reflexivity.
Qed.

Lemma Z_domain : @domain Z_ring.
Proof. intros x y H. cbn [rmul r0 Z_ring] in *. nia. Qed.

Section Bounded.
Context {T : Type} (O : num T) (den : T -> Z) (L : lawful O Z_ring den).
Context (fits : Z -> Prop) (F : fits_ops O Z_ring den fits) (B : Z) (sgn : Prop).
Hypothesis Hfit : forall z, Z.abs z <= B -> sgn \/ 0 <= z -> fits z.
Hypothesis Hsgn : sgn \/ forall a, 0 <= den a.
Notation dc := (dcoef Z_ring den).
Notation sc := (scoef Z_ring den).

Lemma strip_abs_pos p s : abs_sum (dc p) s -> strip O p <> [] -> 1 <= s.
Proof.
  intros H Hn. apply (abs_sum_pos _ _ (length (strip O p) - 1)%nat H).
  rewrite <- (strip_coef O Z_ring den L p). destruct (strip_split O p) as (_ & _ & _ & _ & Hs).
  destruct (strip O p) as [|c q]; [congruence|]. simpl length. rewrite Nat.sub_succ, Nat.sub_0_r.
  rewrite dcoef_cons, Nat.eqb_refl. apply (is_zero_false_den O Z_ring den L), Hs.
Qed.

Lemma dense_mul_ref_fit a b s u : vec_ok O a -> vec_ok O b -> strip O a <> [] -> strip O b <> [] ->
  (len (strip O a) + len (strip O b) - 1 <= n_max_len O)%N -> abs_sum (dc a) s -> abs_sum (dc b) u -> s * u <= B ->
  exists r, dense_mul_ref O a b = Ok r /\ strip O r = r /\ r <> [] /\
    (len r = len (strip O a) + len (strip O b) - 1)%N /\ forall v, abs_sum (dc r) v -> v <= s * u.
Proof.
  intros Ha Hb Na Nb Hc Sa Sb HB. destruct (abs_sum_mul _ _ _ _ _ Sa Sb (peq_refl _)) as [K _].
  destruct (dense_mul_fit O den L fits F B sgn Hfit Hsgn a b Ha Hb Hc (or_introl Na)) as (r & Hr).
  { intros d. specialize (K d). lia. }
  exists r. rewrite dense_mul_ref_strip, Hr. cbn [bind].
  pose proof (slice_mul_lead O Z_ring den L Z_domain a b r Ha Hb Hr Na Nb) as Hs.
  pose proof (slice_mul_coef O Z_ring den L a b r Ha Hb Hr) as [Hl Hrc].
  rewrite Hs. split; [reflexivity|]. split; [reflexivity|].
  assert (length (strip O a) <> 0)%nat by (destruct (strip O a); simpl; congruence).
  assert (length (strip O b) <> 0)%nat by (destruct (strip O b); simpl; congruence).
  split; [intros ->; simpl in Hl; lia|]. split; [unfold len; lia|].
  apply (abs_sum_mul _ _ _ _ _ Sa Sb Hrc).
Qed.

Lemma pow_le s k e : 1 <= s -> (k <= e)%N -> s ^ Z.of_N k <= s ^ Z.of_N e.
Proof. intros Hs H. apply Z.pow_le_mono_r; lia. Qed.

Lemma dense_pow_fit fuel : forall p e s,
  (pow_fuel e <= fuel)%nat -> vec_ok O p -> strip O p <> [] ->
  ((len (strip O p) - 1) * e + 1 <= n_max_len O)%N -> abs_sum (dc p) s -> s ^ Z.of_N e <= B ->
  exists r, dense_pow O fuel p e = Ok r /\ strip O r = r /\ r <> [] /\ (len r = (len (strip O p) - 1) * e + 1)%N
    /\ forall v, abs_sum (dc r) v -> v <= s ^ Z.of_N e.
Proof.
  induction fuel as [fuel IH] using lt_wf_ind. intros p e s H Hv Hn Hcap Hs HB.
  assert (SS : forall l : list T, strip O (strip O l) = strip O l).
  { intros l. destruct (strip_split O l) as (_ & _ & _ & _ & Hs'). destruct (strip O l) as [|c q]; [reflexivity|].
    unfold strip. simpl. rewrite Hs'. reflexivity. }
  pose proof (strip_abs_pos p s Hs Hn) as Hs1.
  assert (Hlp : (1 <= len (strip O p))%N) by (unfold len; destruct (strip O p); simpl length; [congruence|lia]).
  (* squaring an intermediate power *)
  assert (SQ : forall k h, (2 * k <= e)%N -> strip O h = h -> h <> [] -> (len h = (len (strip O p) - 1) * k + 1)%N ->
    (forall v, abs_sum (dc h) v -> v <= s ^ Z.of_N k) ->
    exists r, dense_mul_ref O h h = Ok r /\ strip O r = r /\ r <> [] /\ (len r = (len (strip O p) - 1) * (2 * k) + 1)%N
      /\ forall v, abs_sum (dc r) v -> v <= s ^ Z.of_N (2 * k)).
  { intros k h Hk Sh Nh Lh Ah. destruct (dabs_sum den h) as (u & Hu). pose proof (Ah _ Hu) as Hub.
    pose proof (abs_sum_nonneg _ _ Hu).
    assert (Hp2 : s ^ Z.of_N (2 * k) = s ^ Z.of_N k * s ^ Z.of_N k).
    { rewrite <- Z.pow_add_r by lia. f_equal. lia. }
    pose proof (pow_le s (2 * k) e Hs1 Hk) as Hm. rewrite Hp2 in Hm.
    destruct (dense_mul_ref_fit h h u u) as (r & H1 & H2 & H3 & H4 & H5); rewrite ?Sh; auto; try (unfold vec_ok; nia); try nia.
    exists r. split; [exact H1|]. split; [exact H2|]. split; [exact H3|]. split; [rewrite Sh in H4; nia|].
    intros v Hv'. specialize (H5 v Hv'). rewrite Hp2. nia. }
  assert (SQP : (2 <= e)%N -> exists r, dense_mul_ref O p p = Ok r /\ strip O r = r /\ r <> [] /\ (len r = (len (strip O p) - 1) * 2 + 1)%N
      /\ forall v, abs_sum (dc r) v -> v <= s ^ 2).
  { intros He. pose proof (pow_le s 2 e Hs1 He) as Hm. change (Z.of_N 2) with 2 in Hm. rewrite Z.pow_2_r in *.
    destruct (dense_mul_ref_fit p p s s) as (r & H1 & H2 & H3 & H4 & H5); auto; try nia.
    exists r. split; [exact H1|]. split; [exact H2|]. split; [exact H3|]. split; [nia|]. exact H5. }
  unfold pow_fuel in H. destruct fuel as [|fuel]; [lia|]. cbn [dense_pow].
  destruct (N.eqb_spec e 0) as [->|E0].
  { assert (E1 : is_zero O (one O) = false).
    { destruct (is_zero O (one O)) eqn:E; [|reflexivity].
      apply (is_zero_den O Z_ring den L) in E. rewrite (lw_one _ _ _ L) in E. discriminate E. }
    exists [one O]. split; [reflexivity|]. split; [|split; [discriminate|split; [unfold len; simpl length; lia|]]].
    - unfold strip. simpl. rewrite E1. reflexivity.
    - intros v Hv'. change (s ^ Z.of_N 0) with 1. apply Z.eq_le_incl.
      refine (@is_value_fun Z_ring _ 1 v 1 Hv' _). exists 1%nat. split.
      + intros i Hi. unfold pabs. rewrite dcoef_overflow by (simpl; lia). reflexivity.
      + cbn [sumn]. unfold pabs. rewrite dcoef_cons. cbn [length Nat.eqb]. rewrite (lw_one _ _ _ L). reflexivity. }
  destruct (N.eqb_spec e 1) as [->|E1].
  { exists (strip O p). rewrite dense_new_ok. split; [reflexivity|]. split; [apply SS|]. split; [exact Hn|]. split; [lia|].
    intros v Hv'. change (s ^ Z.of_N 1) with (s ^ 1). rewrite Z.pow_1_r. apply Z.eq_le_incl. refine (@is_value_fun Z_ring _ 1 v s Hv' _).
    eapply abs_sum_ext; [|exact Hs]. apply peq_sym, (strip_coef O Z_ring den L). }
  destruct (N.eqb_spec e 2) as [->|E2].
  { apply SQP. lia. }
  pose proof (size_div2 e ltac:(lia)) as Hsz.
  pose proof (N.div_mod e 2 ltac:(lia)) as Hdm. pose proof (N.mod_lt e 2 ltac:(lia)) as Hml.
  assert (HBh : s ^ Z.of_N (e / 2) <= B) by (pose proof (pow_le s (e / 2) e Hs1 ltac:(lia)); lia).
  destruct (N.eqb_spec (e mod 2) 0) as [Em|Em].
  - destruct (IH fuel ltac:(lia) p (e / 2)%N s) as (h & Hh & Sh & Nh & Lh & Ah); auto;
      [unfold pow_fuel; lia|nia|].
    rewrite Hh. cbn [bind]. destruct fuel as [|fuel]; [lia|]. cbn [dense_pow]. simpl N.eqb. cbv iota.
    destruct (SQ (e / 2)%N h) as (r & H1 & H2 & H3 & H4 & H5); auto; [lia|].
    exists r. replace (2 * (e / 2))%N with e in * by lia. auto.
  - assert (exists h, dense_pow O fuel p (e - 1) = Ok h /\ strip O h = h /\ h <> [] /\
       (len h = (len (strip O p) - 1) * (e - 1) + 1)%N /\ forall v, abs_sum (dc h) v -> v <= s ^ Z.of_N (e - 1))
       as (h & Hh & Sh & Nh & Lh & Ah).
    { destruct fuel as [|fuel]; [lia|]. cbn [dense_pow].
      destruct (N.eqb_spec (e - 1) 0) as [E3|E3]; [lia|].
      destruct (N.eqb_spec (e - 1) 1) as [E4|E4]; [exfalso; apply E2; lia|].
      destruct (N.eqb_spec (e - 1) 2) as [E5|E5].
      { rewrite E5. apply SQP. lia. }
      assert (Hm : ((e - 1) mod 2 = 0)%N).
      { replace (e - 1)%N with (e / 2 * 2)%N by lia. apply N.mod_mul. lia. }
      rewrite Hm. change (0 =? 0)%N with true. cbv iota.
      assert (Hd : ((e - 1) / 2 = e / 2)%N).
      { replace (e - 1)%N with (e / 2 * 2)%N by lia. apply N.div_mul. lia. }
      rewrite Hd.
      destruct (IH fuel ltac:(lia) p (e / 2)%N s) as (h & Hh & Sh & Nh & Lh & Ah); auto;
        [unfold pow_fuel; lia|nia|].
      rewrite Hh. cbn [bind]. destruct fuel as [|fuel]; [lia|]. cbn [dense_pow]. simpl N.eqb. cbv iota.
      destruct (SQ (e / 2)%N h) as (r & H1 & H2 & H3 & H4 & H5); auto; [lia|].
      exists r. replace (2 * (e / 2))%N with (e - 1)%N in * by lia. auto. }
    rewrite Hh. cbn [bind].
    destruct (dabs_sum den h) as (u & Hu). pose proof (Ah _ Hu) as Hub. pose proof (abs_sum_nonneg _ _ Hu).
    assert (Hpe : s ^ Z.of_N e = s * s ^ Z.of_N (e - 1)).
    { rewrite <- Z.pow_succ_r by lia. f_equal. lia. }
    rewrite Hpe in *.
    destruct (dense_mul_ref_fit p h s u) as (r & H1 & H2 & H3 & H4 & H5); rewrite ?Sh; auto; try (unfold vec_ok; nia); try nia.
    exists r. split; [exact H1|]. split; [exact H2|]. split; [exact H3|]. split; [rewrite Sh in H4; nia|].
    intros v Hv'. specialize (H5 v Hv'). nia.
Qed.

(** ** sparse powers *)

Definition keys_le (n : N) (m : bmap T) : Prop := Forall (fun kv => (fst kv <= n)%N) m.

Lemma m_insert_keys n (m : bmap T) k v : keys_le n m -> (k <= n)%N -> keys_le n (m_insert k v m).
Proof.
  intros H Hk. induction m as [|[k' v'] m IH]; simpl; [repeat constructor; exact Hk|].
  inversion H; subst. destruct (N.compare k k'); constructor; auto. apply IH. assumption.
Qed.

Lemma sparse_mul_keys na nb a b r : keys_le na a -> keys_le nb b -> (na + nb <= USIZE_MAX)%N ->
  sparse_mul O a b = Ok r -> keys_le (na + nb) r.
Proof.
  intros Ha Hb Hs H. unfold sparse_mul in H. revert H. apply foldM_inv; [|constructor].
  intros s kv s' Hi Hk Hf. destruct (is_zero O (snd kv)); [inv_ok; exact Hk|]. unfold map_mul_row in Hf. revert Hf.
  apply foldM_inv; [|exact Hk]. clear s Hk s'. intros s x s' Hx Hk Hf. inv_ok.
  unfold keys_le in Ha, Hb. rewrite Forall_forall in Ha, Hb. specialize (Ha x Hx). specialize (Hb kv Hi).
  rewrite uadd_small in E by lia. inv_ok.
  unfold m_upsert in Hf. destruct (m_get _ s); inv_ok; (apply m_insert_keys; [exact Hk|lia]).
Qed.

Lemma sabs_sum m : swf m -> exists s, abs_sum (sc m) s.
Proof.
  intros Hm. assert (K : exists n, forall i, (n <= i)%nat -> sc m i = 0).
  { exists (N.to_nat (USIZE_MAX + 1)). intros i Hi. rewrite scoef_get by apply Hm.
    destruct (m_get (N.of_nat i) m) eqn:E; [|reflexivity]. exfalso. apply m_get_in in E.
    destruct Hm as [_ Hm]. rewrite Forall_forall in Hm. specialize (Hm _ E). cbn [fst] in Hm. lia. }
  destruct K as (n & Hn). eexists. exists n. split; [|reflexivity]. intros i Hi. unfold pabs. rewrite Hn by exact Hi. reflexivity.
Qed.

Lemma sparse_mul_sum_fit a b s u na nb : swf a -> swf b -> keys_le na a -> keys_le nb b -> (na + nb <= USIZE_MAX)%N ->
  abs_sum (sc a) s -> abs_sum (sc b) u -> s * u <= B ->
  exists r, sparse_mul O a b = Ok r /\ swf r /\ keys_le (na + nb) r /\ forall v, abs_sum (sc r) v -> v <= s * u.
Proof.
  intros Ha Hb Ka Kb Hs Sa Sb HB. destruct (abs_sum_mul _ _ _ _ _ Sa Sb (peq_refl _)) as [K _].
  assert (Hk : forall kv kv', In kv a -> In kv' b -> (fst kv' + fst kv <= na + nb)%N).
  { unfold keys_le in Ka, Kb. rewrite Forall_forall in Ka, Kb. intros kv kv' H1 H2.
    specialize (Ka _ H1). specialize (Kb _ H2). lia. }
  destruct (sparse_mul_fit O den L fits F B sgn Hfit Hsgn a b Ha Hb) as (r & Hr).
  { intros k v Hi _ kv Hi'. pose proof (Hk _ _ Hi' Hi). cbn [fst] in *. lia. }
  { intros d. specialize (K d). lia. }
  exists r. split; [exact Hr|]. split; [eapply sparse_mul_wf; exact Hr|].
  split; [eapply sparse_mul_keys; eassumption|].
  assert (Hd : peq (sc r) (pmul (sc a) (sc b))).
  { unfold sparse_mul in Hr. assert (H0 : swf (@nil (N * T))) by (split; constructor).
    destruct (sparse_mul_gen O Z_ring den L a b Ha) with (acc := @nil (N * T)) (r := r) as [_ C]; auto.
    - intros k v Hi _ kv Hi'. right. left. pose proof (Hk _ _ Hi' Hi). cbn [fst] in *. lia.
    - intros d. rewrite C. unfold padd. rewrite scoef_nil, pmul_comm. cbn [radd r0 Z_ring]. lia. }
  apply (abs_sum_mul _ _ _ _ _ Sa Sb Hd).
Qed.

Lemma sparse_pow_fit n fuel : forall p e s, (pow_fuel e <= fuel)%nat -> swf p -> keys_le n p -> (n * e <= USIZE_MAX)%N ->
  abs_sum (sc p) s -> (1 <= s) -> s ^ Z.of_N e <= B ->
  exists r, sparse_pow O fuel p e = Ok r /\ swf r /\ keys_le (n * e) r /\ forall v, abs_sum (sc r) v -> v <= s ^ Z.of_N e.
Proof.
  induction fuel as [fuel IH] using lt_wf_ind. intros p e s H Hv Hn Hcap Hs Hs1 HB.
  assert (SQ : forall k h, (2 * k <= e)%N -> swf h -> keys_le (n * k) h ->
    (forall v, abs_sum (sc h) v -> v <= s ^ Z.of_N k) ->
    exists r, sparse_mul O h h = Ok r /\ swf r /\ keys_le (n * (2 * k)) r
      /\ forall v, abs_sum (sc r) v -> v <= s ^ Z.of_N (2 * k)).
  { intros k h Hk Wh Kh Ah. destruct (sabs_sum h Wh) as (u & Hu). pose proof (Ah _ Hu) as Hub.
    pose proof (abs_sum_nonneg _ _ Hu).
    assert (Hp2 : s ^ Z.of_N (2 * k) = s ^ Z.of_N k * s ^ Z.of_N k).
    { rewrite <- Z.pow_add_r by lia. f_equal. lia. }
    pose proof (pow_le s (2 * k) e Hs1 Hk) as Hm. rewrite Hp2 in Hm.
    destruct (sparse_mul_sum_fit h h u u (n * k) (n * k)) as (r & H1 & H2 & H3 & H4); auto; try nia.
    exists r. split; [exact H1|]. split; [exact H2|]. split; [replace (n * (2 * k))%N with (n * k + n * k)%N by lia; exact H3|].
    intros v Hv'. specialize (H4 v Hv'). rewrite Hp2. nia. }
  assert (SQP : (2 <= e)%N -> exists r, sparse_mul O p p = Ok r /\ swf r /\ keys_le (n * 2) r
      /\ forall v, abs_sum (sc r) v -> v <= s ^ 2).
  { intros He. pose proof (pow_le s 2 e Hs1 He) as Hm. change (Z.of_N 2) with 2 in Hm. rewrite Z.pow_2_r in *.
    destruct (sparse_mul_sum_fit p p s s n n) as (r & H1 & H2 & H3 & H4); auto; try nia.
    exists r. split; [exact H1|]. split; [exact H2|]. split; [replace (n * 2)%N with (n + n)%N by lia; exact H3|exact H4]. }
  unfold pow_fuel in H. destruct fuel as [|fuel]; [lia|]. cbn [sparse_pow].
  destruct (N.eqb_spec e 0) as [->|E0].
  { exists [(0%N, one O)]. split; [reflexivity|].
    split; [split; repeat constructor; cbn; lia|]. split; [constructor; [cbn; lia|constructor]|].
    intros v Hv'. change (s ^ Z.of_N 0) with 1. apply Z.eq_le_incl.
    refine (@is_value_fun Z_ring _ 1 v 1 Hv' _). exists 1%nat. split.
    - intros i Hi. unfold pabs. rewrite scoef_cons. unfold padd, pmono. rewrite scoef_nil. destruct (Nat.eqb_spec i (N.to_nat 0)); [cbn in *; lia|reflexivity].
    - cbn [sumn]. unfold pabs. rewrite scoef_cons. unfold padd, pmono. rewrite scoef_nil. cbn. rewrite (lw_one _ _ _ L). reflexivity. }
  destruct (N.eqb_spec e 1) as [->|E1].
  { exists p. split; [reflexivity|]. split; [exact Hv|]. split; [rewrite N.mul_1_r; exact Hn|].
    intros v Hv'. change (s ^ Z.of_N 1) with (s ^ 1). rewrite Z.pow_1_r. apply Z.eq_le_incl. exact (@is_value_fun Z_ring _ 1 v s Hv' Hs). }
  destruct (N.eqb_spec e 2) as [->|E2].
  { apply SQP. lia. }
  pose proof (size_div2 e ltac:(lia)) as Hsz.
  pose proof (N.div_mod e 2 ltac:(lia)) as Hdm. pose proof (N.mod_lt e 2 ltac:(lia)) as Hml.
  assert (HBh : s ^ Z.of_N (e / 2) <= B) by (pose proof (pow_le s (e / 2) e Hs1 ltac:(lia)); lia).
  destruct (N.eqb_spec (e mod 2) 0) as [Em|Em].
  - destruct (IH fuel ltac:(lia) p (e / 2)%N s) as (h & Hh & Wh & Kh & Ah); auto;
      [unfold pow_fuel; lia|nia|].
    rewrite Hh. cbn [bind]. destruct fuel as [|fuel]; [lia|]. cbn [sparse_pow]. simpl N.eqb. cbv iota.
    destruct (SQ (e / 2)%N h) as (r & H1 & H2 & H3 & H4); auto; [lia|].
    exists r. replace (2 * (e / 2))%N with e in * by lia. auto.
  - assert (exists h, sparse_pow O fuel p (e - 1) = Ok h /\ swf h /\ keys_le (n * (e - 1)) h
       /\ forall v, abs_sum (sc h) v -> v <= s ^ Z.of_N (e - 1)) as (h & Hh & Wh & Kh & Ah).
    { destruct fuel as [|fuel]; [lia|]. cbn [sparse_pow].
      destruct (N.eqb_spec (e - 1) 0) as [E3|E3]; [lia|].
      destruct (N.eqb_spec (e - 1) 1) as [E4|E4]; [exfalso; apply E2; lia|].
      destruct (N.eqb_spec (e - 1) 2) as [E5|E5].
      { rewrite E5. apply SQP. lia. }
      assert (Hm : ((e - 1) mod 2 = 0)%N).
      { replace (e - 1)%N with (e / 2 * 2)%N by lia. apply N.mod_mul. lia. }
      rewrite Hm. change (0 =? 0)%N with true. cbv iota.
      assert (Hd : ((e - 1) / 2 = e / 2)%N).
      { replace (e - 1)%N with (e / 2 * 2)%N by lia. apply N.div_mul. lia. }
      rewrite Hd.
      destruct (IH fuel ltac:(lia) p (e / 2)%N s) as (h & Hh & Wh & Kh & Ah); auto;
        [unfold pow_fuel; lia|nia|].
      rewrite Hh. cbn [bind]. destruct fuel as [|fuel]; [lia|]. cbn [sparse_pow]. simpl N.eqb. cbv iota.
      destruct (SQ (e / 2)%N h) as (r & H1 & H2 & H3 & H4); auto; [lia|].
      exists r. replace (2 * (e / 2))%N with (e - 1)%N in * by lia. auto. }
    rewrite Hh. cbn [bind].
    destruct (sabs_sum h Wh) as (u & Hu). pose proof (Ah _ Hu) as Hub. pose proof (abs_sum_nonneg _ _ Hu).
    assert (Hpe : s ^ Z.of_N e = s * s ^ Z.of_N (e - 1)).
    { rewrite <- Z.pow_succ_r by lia. f_equal. lia. }
    rewrite Hpe in *.
    destruct (sparse_mul_sum_fit p h s u n (n * (e - 1))) as (r & H1 & H2 & H3 & H4); auto; try nia.
    exists r. split; [exact H1|]. split; [exact H2|].
    split; [replace (n * e)%N with (n + n * (e - 1))%N by nia; exact H3|].
    intros v Hv'. specialize (H4 v Hv'). nia.
Qed.

End Bounded.
