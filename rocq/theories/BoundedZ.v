(** Exact integer arithmetic with a bounded range: when multiplication, evaluation and
    differentiation return.  Used for overflow-checked integers and for floats that
    hold integers. *)

From Coq Require Import List NArith ZArith Lia Bool Arith.
From Coq Require Import ZifyBool ZifyNat ZifyN.
From Verif Require Import Base Num Spec SpecFacts Laws Terms Dense DenseFacts DenseArith DenseMul DenseMulInt DenseCalc.
From Verif Require Import Sparse SparseFacts SparseArith SparseCalc Mono Bino Trino FixedFacts.
Import ListNotations.
Local Open Scope Z_scope.

(** The value of a polynomial of absolute values at a non-negative point. *)
Fixpoint hw (X s : Z) (l : list Z) : Z :=
  match l with [] => s | c :: l' => hw X ((s + Z.abs c) * X) l' end.

Lemma hw_ge X l : 1 <= X -> forall s, 0 <= s -> s <= hw X s l.
Proof.
  intros HX. induction l as [|c l IH]; intros s Hs; cbn [hw]; [lia|].
  etransitivity; [|apply IH; nia]. nia.
Qed.

Lemma be_coef_snoc (l : list Z) c d : @be_coef Z_ring (l ++ [c]) d = match d with 0%nat => c | S d' => be_coef (R := Z_ring) l d' end.
Proof. unfold be_coef. rewrite rev_app_distr. destruct d; reflexivity. Qed.

Lemma is_value_be_snoc (l : list Z) c x v : @is_value Z_ring (pabs (be_coef (R := Z_ring) l)) x v ->
  @is_value Z_ring (pabs (be_coef (R := Z_ring) (l ++ [c]))) x (v * x + Z.abs c).
Proof.
  intros (n & Hn & ->). exists (S n). split.
  - intros [|i] Hi; [lia|]. unfold pabs. rewrite be_coef_snoc. apply Hn. lia.
  - rewrite sumn_S_l.
    change (pabs (be_coef (R := Z_ring) (l ++ [c])) 0%nat) with (Z.abs (be_coef (R := Z_ring) (l ++ [c]) 0%nat)).
    rewrite be_coef_snoc. rewrite <- (@sumn_mul_r Z_ring x).
    cbn [rpow radd rmul r1 Z_ring]. rewrite Z.mul_1_r, Z.add_comm. f_equal. apply (@sumn_ext Z_ring). intros i _.
    unfold pabs. rewrite be_coef_snoc. cbn [rmul Z_ring]. lia.
Qed.

Lemma is_value_hw (l : list Z) X : exists v, @is_value Z_ring (pabs (be_coef (R := Z_ring) l)) X v /\ hw X 0 l = v * X.
Proof.
  induction l as [|c l IH] using rev_ind.
  - exists 0. split; [|reflexivity]. apply (@is_value_zero Z_ring). intros d. unfold pabs, be_coef. destruct d; reflexivity.
  - destruct IH as (v & Hv & E). exists (v * X + Z.abs c). split; [apply is_value_be_snoc, Hv|].
    assert (Happ : forall s, hw X s (l ++ [c]) = (hw X s l + Z.abs c) * X).
    { clear. induction l as [|a l IH]; intros s; cbn [app hw]; [reflexivity|]. apply IH. }
    rewrite Happ, E. reflexivity.
Qed.

Section Bounded.
Context {T : Type} (O : num T) (den : T -> Z) (L : lawful O Z_ring den).
Context (fits : Z -> Prop) (F : fits_ops O Z_ring den fits) (B : Z) (sgn : Prop).
Hypothesis Hfit : forall z, Z.abs z <= B -> sgn \/ 0 <= z -> fits z.
Hypothesis Hsgn : sgn \/ forall a, 0 <= den a.
Notation dc := (dcoef Z_ring den).
Notation sc := (scoef Z_ring den).

Lemma add_ok a b : Z.abs (den a + den b) <= B -> exists c, add O a b = Ok c /\ den c = den a + den b.
Proof.
  intros H. destruct (proj2 (fo_add _ _ _ _ F a b)) as (c & Hc).
  - apply (Hfit _ H). destruct Hsgn as [K|K]; [auto|right]. pose proof (K a). pose proof (K b). lia.
  - exists c. split; [exact Hc|]. apply (lw_add _ _ _ L _ _ _ Hc).
Qed.
Lemma mul_ok a b : Z.abs (den a * den b) <= B -> exists c, mul O a b = Ok c /\ den c = den a * den b.
Proof.
  intros H. destruct (proj2 (fo_mul _ _ _ _ F a b)) as (c & Hc).
  - apply (Hfit _ H). destruct Hsgn as [K|K]; [auto|right]. pose proof (K a). pose proof (K b). nia.
  - exists c. split; [exact Hc|]. apply (lw_mul _ _ _ L _ _ _ Hc).
Qed.

Lemma dcoef_nonneg l d : (forall a, 0 <= den a) -> 0 <= dc l d.
Proof.
  intros H. induction l as [|c l IH]; [rewrite dcoef_nil; simpl; lia|].
  rewrite dcoef_cons. destruct (Nat.eqb d (length l)); auto.
Qed.

(** ** dense multiplication *)

Lemma pabs_dcons c l : peq (pabs (dc (c :: l))) (padd (@pmono Z_ring (Z.abs (den c)) (length l)) (pabs (dc l))).
Proof.
  intros d. unfold pabs, padd, pmono. rewrite dcoef_cons.
  destruct (Nat.eqb_spec d (length l)) as [->|]; simpl; [|lia].
  rewrite (dcoef_overflow Z_ring den l) by lia. simpl. lia.
Qed.

Lemma pmul_pabs_dcons c l (q : poly Z_ring) d :
  pmul (pabs (dc (c :: l))) q d =
  (if Nat.ltb d (length l) then 0 else Z.abs (den c) * (q (d - length l)%nat)) + (pmul (pabs (dc l)) q d).
Proof.
  rewrite (pmul_ext _ _ _ _ (pabs_dcons c l) (peq_refl q)), pmul_padd_l. unfold padd.
  rewrite pmul_pmono_l. reflexivity.
Qed.

Lemma mul_rows_fit rhs lhs : forall idx terms,
  (length terms + 1 = idx + length rhs + length lhs)%nat ->
  (forall d, Z.abs (dc terms d) + pmul (pabs (dc rhs)) (pabs (dc lhs)) d <= B) ->
  exists r, mul_rows O idx rhs lhs terms = Ok r.
Proof.
  induction rhs as [|c rhs IH]; intros idx terms Hl Hb; cbn [mul_rows]; [eauto|]. simpl in Hl.
  assert (Hb0 : forall d, Z.abs (dc terms d)
     + ((if Nat.ltb d (length rhs) then 0 else Z.abs (den c) * Z.abs (dc lhs (d - length rhs)%nat))
        + pmul (pabs (dc rhs)) (pabs (dc lhs)) d) <= B).
  { intros d. specialize (Hb d). rewrite pmul_pabs_dcons in Hb. exact Hb. }
  destruct (is_zero O c) eqn:Ec.
  - apply IH; [lia|]. intros d. specialize (Hb0 d). destruct (Nat.ltb d (length rhs)); lia.
  - unfold slice_from. destruct (Nat.leb_spec idx (length terms)); [|lia]. cbn [bind].
    set (tail := skipn idx terms).
    assert (Htl : length tail = (length lhs + length rhs)%nat) by (unfold tail; rewrite skipn_length; lia).
    assert (Htd : forall d, (d < length tail)%nat -> dc tail d = dc terms d).
    { intros d Hd. rewrite <- (firstn_skipn idx terms). rewrite dcoef_app. fold tail.
      destruct (Nat.ltb_spec d (length tail)); [reflexivity|lia]. }
    assert (exists r, mul_row O c lhs tail = Ok r) as (r & Hr).
    { unfold mul_row. rewrite zipM_prefix by lia.
      set (t1 := firstn (length lhs) tail).
      assert (H1 : length t1 = length lhs) by (unfold t1; rewrite firstn_length; lia).
      assert (exists r, zipM (fun t0 l => p <- mul O c l ;; add O t0 p) t1 lhs = Ok r) as (r & Hr).
      { apply (zipM_defined Z_ring den _
          (fun x y => fits (den c * y) /\ fits (x + den c * y))).
        - intros x y. split.
          + intros (z & Hz). inv_ok. split; [apply (fo_mul _ _ _ _ F); eauto|].
            pose proof (lw_mul _ _ _ L _ _ _ E) as K. cbn [rmul Z_ring] in K. rewrite <- K. apply (fo_add _ _ _ _ F). eauto.
          + intros (A1 & A2). apply (fo_mul _ _ _ _ F) in A1. destruct A1 as (p & Hp). rewrite Hp. cbn [bind].
            pose proof (lw_mul _ _ _ L _ _ _ Hp) as K. cbn [rmul Z_ring] in K. rewrite <- K in A2. apply (fo_add _ _ _ _ F), A2.
        - exact H1.
        - intros d Hd. rewrite H1 in Hd.
          assert (Ht1 : dc t1 d = dc terms (d + length rhs)%nat).
          { rewrite <- Htd by lia. rewrite <- (firstn_skipn (length lhs) tail). fold t1.
            rewrite dcoef_app, skipn_length.
            destruct (Nat.ltb_spec (d + length rhs) (length tail - length lhs)); [lia|]. f_equal. lia. }
          rewrite Ht1. specialize (Hb0 (d + length rhs)%nat).
          destruct (Nat.ltb_spec (d + length rhs) (length rhs)); [lia|].
          replace (d + length rhs - length rhs)%nat with d in Hb0 by lia.
          pose proof (pmul_abs_nonneg (dc rhs) (dc lhs) (d + length rhs)%nat) as Hn.
          rewrite <- Z.abs_mul in Hb0.
          assert (Hz : sgn \/
            (0 <= den c * dc lhs d /\ 0 <= dc terms (d + length rhs)%nat)).
          { destruct Hsgn as [|Hpos]; [auto|right].
            pose proof (Hpos c). pose proof (dcoef_nonneg lhs d Hpos).
            pose proof (dcoef_nonneg terms (d + length rhs)%nat Hpos). nia. }
          split; apply Hfit.
          + lia.
          + destruct Hz as [Hz|Hz]; [left; exact Hz|right; lia].
          + lia.
          + destruct Hz as [Hz|Hz]; [left; exact Hz|right; lia]. }
      rewrite Hr. simpl. eauto. }
    rewrite Hr. cbn [bind]. pose proof (mul_row_coef O Z_ring den L _ _ _ _ (length rhs) Htl Hr) as [Hrl Hrc].
    apply IH.
    + rewrite app_length, firstn_length, Hrl. lia.
    + intros d. specialize (Hb0 d). rewrite dcoef_app, Hrl.
      destruct (Nat.ltb_spec d (length tail)) as [Hd|Hd].
      * rewrite Hrc, Htd by exact Hd. simpl. destruct (Nat.ltb d (length rhs)); lia.
      * rewrite <- (firstn_skipn idx terms), dcoef_app in Hb0. fold tail in Hb0.
        destruct (Nat.ltb_spec d (length tail)); [lia|].
        destruct (Nat.ltb d (length rhs)); lia.
Qed.

Lemma dense_mul_fit a b : vec_ok O a -> vec_ok O b ->
  (len (strip O a) + len (strip O b) - 1 <= n_max_len O)%N ->
  (strip O a <> [] \/ strip O b <> []) ->
  (forall d, pmul (pabs (dc a)) (pabs (dc b)) d <= B) ->
  exists r, dense_mul O a b = Ok r.
Proof.
  intros Ha Hb Hc Hn Hm. unfold dense_mul. rewrite (slice_mul_unfold O Z_ring den L) by assumption.
  unfold vec_repeat. destruct (N.leb_spec (len (strip O a) + len (strip O b) - 1) (n_max_len O)); [|lia].
  cbn [bind]. apply mul_rows_fit.
  - rewrite repeat_length. unfold len.
    destruct (strip O a), (strip O b); simpl length; try lia. destruct Hn; congruence.
  - intros d. rewrite (dcoef_all_zero O Z_ring den L) by apply (all_zero_repeat O Z_ring den L).
    change (Z.abs (@r0 Z_ring)) with 0. rewrite Z.add_0_l.
    etransitivity; [|apply (Hm d)]. apply Z.eq_le_incl. rewrite (pmul_comm (pabs (dc a))).
    apply (@pmul_ext Z_ring); intros e; unfold pabs; rewrite (strip_coef O Z_ring den L); reflexivity.
Qed.

(** ** dense evaluation *)

Lemma horner_fit x l : 1 <= Z.abs (den x) -> forall s, hw (Z.abs (den x)) (Z.abs (den s)) (map den l) <= B ->
  exists r, foldM (fun sum val => s <- add O sum val ;; mul O s x) s l = Ok r
            /\ Z.abs (den r) <= hw (Z.abs (den x)) (Z.abs (den s)) (map den l).
Proof.
  intros HX. induction l as [|c l IH]; intros s H; cbn [foldM map hw] in *.
  - exists s. split; [reflexivity|lia].
  - pose proof (hw_ge _ (map den l) HX ((Z.abs (den s) + Z.abs (den c)) * Z.abs (den x)) ltac:(nia)) as G.
    destruct (add_ok s c) as (a & Ha & Da); [nia|]. rewrite Ha. cbn [bind].
    destruct (mul_ok a x) as (m & Hm & Dm).
    { rewrite Da, Z.abs_mul. nia. }
    rewrite Hm. cbn [bind].
    assert (Mono : forall l s s', 0 <= s <= s' -> hw (Z.abs (den x)) s l <= hw (Z.abs (den x)) s' l).
    { clear - HX. induction l as [|c l IH]; intros s s' Hs; cbn [hw]; [lia|]. apply IH. nia. }
    assert (K : Z.abs (den m) <= (Z.abs (den s) + Z.abs (den c)) * Z.abs (den x)).
    { rewrite Dm, Da, Z.abs_mul. nia. }
    pose proof (Mono (map den l) (Z.abs (den m)) _ (conj (Z.abs_nonneg _) K)) as K'.
    destruct (IH m) as (r & Hr & Dr); [lia|]. exists r. split; [exact Hr|lia].
Qed.

Lemma dense_eval_fit l x v : @is_value Z_ring (pabs (dc l)) (Z.abs (den x)) v -> v <= B -> exists r, dense_eval O l x = Ok r.
Proof.
  intros Hv Hb. unfold dense_eval. pose proof (split_last_spec l) as Hs. destruct (split_last l) as [[c first]|]; [|eauto].
  destruct (is_zero O x) eqn:Ex; [eauto|]. subst l.
  assert (HX : 1 <= Z.abs (den x)).
  { pose proof (is_zero_false_den O Z_ring den L x Ex) as K. cbn in K. lia. }
  destruct (is_value_hw (map den first) (Z.abs (den x))) as (w & Hw & Ew).
  pose proof (is_value_be_snoc _ (den c) _ _ Hw) as Hw'.
  assert (E : v = w * Z.abs (den x) + Z.abs (den c)).
  { eapply is_value_fun; [exact Hv|]. revert Hw'. unfold dcoef. rewrite map_app. exact (fun K => K). }
  unfold horner. destruct (horner_fit x first HX (zero O)) as (s & Hs & Ds).
  { rewrite (lw_zero _ _ _ L). cbn [r0 Z_ring]. rewrite Z.abs_0, Ew. lia. }
  rewrite (lw_zero _ _ _ L) in Ds. cbn [r0 Z_ring] in Ds. rewrite Z.abs_0, Ew in Ds.
  rewrite Hs. cbn [bind]. destruct (add_ok s c) as (r & Hr & _); [lia|]. eauto.
Qed.

(** ** sparse multiplication *)

Lemma scoef_nonneg m d : (forall a, 0 <= den a) -> 0 <= sc m d.
Proof.
  intros H. induction m as [|[k v] m IH]; [rewrite scoef_nil; simpl; lia|].
  rewrite scoef_cons. unfold padd, pmono. pose proof (H v). cbn [radd r0 Z_ring].
  destruct (Nat.eqb d (N.to_nat k)); lia.
Qed.

Lemma scoef_in m k v : swf m -> In (k, v) m -> sc m (N.to_nat k) = den v.
Proof. intros Hm Hi. rewrite scoef_get, N2Nat.id, (sorted_in_get m k v (proj1 Hm) Hi) by apply Hm. reflexivity. Qed.

Lemma pabs_scons k v m : swf ((k, v) :: m) ->
  peq (pabs (sc ((k, v) :: m))) (padd (@pmono Z_ring (Z.abs (den v)) (N.to_nat k)) (pabs (sc m))).
Proof.
  intros Hm d. unfold pabs, padd, pmono. rewrite scoef_cons. unfold padd, pmono. cbn [radd r0 Z_ring].
  destruct (Nat.eqb_spec d (N.to_nat k)) as [->|]; [|lia].
  assert (K : sc m (N.to_nat k) = 0).
  { pose proof (scoef_in _ k v Hm (or_introl eq_refl)) as K. rewrite scoef_cons in K. unfold padd, pmono in K.
    rewrite Nat.eqb_refl in K. cbn [radd Z_ring] in K. lia. }
  rewrite K. lia.
Qed.

Lemma map_mul_row_fit k v lhs acc : swf lhs -> swf acc ->
  (forall kv, In kv lhs -> (k + fst kv <= USIZE_MAX)%N) ->
  (forall d, Z.abs (sc acc d) + pmul (@pmono Z_ring (Z.abs (den v)) (N.to_nat k)) (pabs (sc lhs)) d <= B) ->
  exists r, map_mul_row O k v acc lhs = Ok r.
Proof.
  intros Hl Ha Hk Hb.
  assert (Hrow : forall d, pmul (@pmono Z_ring (Z.abs (den v)) (N.to_nat k)) (pabs (sc lhs)) d
                 = Z.abs (pmul (@pmono Z_ring (den v) (N.to_nat k)) (sc lhs) d)).
  { intros d. rewrite !pmul_pmono_l. unfold pabs. destruct (Nat.ltb d (N.to_nat k)); [reflexivity|]. cbn [rmul Z_ring].
    rewrite Z.abs_mul. reflexivity. }
  assert (Hp : forall kv, In kv lhs -> fits (den v * den (snd kv))).
  { intros [k' v'] Hi. cbn [snd]. apply Hfit.
    - specialize (Hb (N.to_nat k + N.to_nat k')%nat). rewrite pmul_pmono_l in Hb.
      destruct (Nat.ltb_spec (N.to_nat k + N.to_nat k') (N.to_nat k)); [lia|].
      replace (N.to_nat k + N.to_nat k' - N.to_nat k)%nat with (N.to_nat k') in Hb by lia.
      unfold pabs in Hb. rewrite (scoef_in _ _ _ Hl Hi) in Hb. cbn [rmul Z_ring] in Hb. rewrite <- Z.abs_mul in Hb. lia.
    - destruct Hsgn as [K|K]; [auto|right]. pose proof (K v). pose proof (K v'). nia. }
  apply (fold_upsert_returns O Z_ring den L (mul_kf O k) (mul_none O v) (mul_some O v) (fun kv => (k + fst kv)%N)
           (fun kv => @rmul Z_ring (den v) (den (snd kv))) fits lhs (fo_den _ _ _ _ F) acc Ha).
  - rewrite Forall_forall. intros kv Hi. split; [|split; [|split; [|split]]].
    + unfold mul_kf. apply uadd_small, Hk, Hi.
    + apply Hk, Hi.
    + apply (mul_entry_ok O Z_ring den L). right. left. apply Hk, Hi.
    + unfold mul_none. apply (fo_mul _ _ _ _ F).
    + intros x. unfold mul_some. pose proof (Hp kv Hi) as K. apply (fo_mul _ _ _ _ F) in K. destruct K as (p & K).
      rewrite K. cbn [bind]. rewrite <- (lw_mul _ _ _ L _ _ _ K). apply (fo_add _ _ _ _ F).
  - pose proof (sorted_nodup lhs (proj1 Hl)) as K. clear - K. induction lhs as [|kv l IH]; [constructor|].
    cbn [map] in *. inversion K; subst. constructor; [|apply IH; assumption]. rewrite in_map_iff in *.
    intros (x & E & Hx). apply H1. exists x. split; [lia|exact Hx].
  - intros d. unfold padd. rewrite mul_row_addends. apply Hfit.
    + specialize (Hb d). rewrite Hrow in Hb. cbn [radd Z_ring]. lia.
    + destruct Hsgn as [K|K]; [auto|right]. rewrite pmul_pmono_l. pose proof (scoef_nonneg acc d K). pose proof (K v).
      pose proof (scoef_nonneg lhs (d - N.to_nat k)%nat K). cbn [radd rmul r0 Z_ring]. destruct (Nat.ltb d (N.to_nat k)); nia.
Qed.

Lemma swf_tail k v m : @swf T ((k, v) :: m) -> swf m.
Proof. intros [H1 H2]. inversion H2; subst. split; [|assumption]. clear - H1. inversion H1; subst; assumption. Qed.

Lemma sparse_mul_fit lhs rhs : swf lhs -> swf rhs ->
  (forall k v, In (k, v) rhs -> is_zero O v = false -> forall kv, In kv lhs -> (k + fst kv <= USIZE_MAX)%N) ->
  (forall d, pmul (pabs (sc lhs)) (pabs (sc rhs)) d <= B) -> exists r, sparse_mul O lhs rhs = Ok r.
Proof.
  intros Hl Hr Hk Hb. unfold sparse_mul.
  assert (G : forall acc, swf acc -> (forall d, Z.abs (sc acc d) + pmul (pabs (sc rhs)) (pabs (sc lhs)) d <= B) ->
    exists r, foldM (fun terms kv => if is_zero O (snd kv) then Ok terms else map_mul_row O (fst kv) (snd kv) terms lhs) acc rhs = Ok r).
  2:{ apply G; [split; constructor|]. intros d. rewrite scoef_nil. rewrite pmul_comm. cbn [r0 Z_ring]. specialize (Hb d). lia. }
  clear Hb. induction rhs as [|[k v] rhs IH]; intros acc Ha Hb; cbn [foldM fst snd]; [eauto|].
  assert (Hb0 : forall d, Z.abs (sc acc d) + (pmul (@pmono Z_ring (Z.abs (den v)) (N.to_nat k)) (pabs (sc lhs)) d
                 + pmul (pabs (sc rhs)) (pabs (sc lhs)) d) <= B).
  { intros d. specialize (Hb d). rewrite (pmul_ext _ _ _ _ (pabs_scons k v rhs Hr) (peq_refl _)), pmul_padd_l in Hb. exact Hb. }
  assert (Hk' : forall k0 v0, In (k0, v0) rhs -> is_zero O v0 = false -> forall kv, In kv lhs -> (k0 + fst kv <= USIZE_MAX)%N)
    by (intros; eapply Hk; simpl; eauto).
  assert (N1 : forall d, 0 <= pmul (pabs (sc rhs)) (pabs (sc lhs)) d) by apply pmul_abs_nonneg.
  assert (N2 : forall d, 0 <= pmul (@pmono Z_ring (Z.abs (den v)) (N.to_nat k)) (pabs (sc lhs)) d).
  { intros d. rewrite pmul_pmono_l. unfold pabs. cbn [rmul r0 Z_ring]. destruct (Nat.ltb d (N.to_nat k)); nia. }
  destruct (is_zero O v) eqn:Ez; cbn [bind].
  - apply (IH (swf_tail _ _ _ Hr) Hk' acc Ha). intros d. specialize (Hb0 d). specialize (N2 d). lia.
  - destruct (map_mul_row_fit k v lhs acc Hl Ha) as (acc' & Hacc).
    + intros kv Hi. apply (Hk k v); simpl; auto.
    + intros d. specialize (Hb0 d). specialize (N1 d). lia.
    + rewrite Hacc. cbn [bind].
      destruct (fold_upsert_spec Z_ring den (mul_kf O k) (mul_none O v) (mul_some O v) (fun kv => (k + fst kv)%N)
        (fun kv => @rmul Z_ring (den v) (den (snd kv))) lhs acc acc' Ha) as [W1 C1].
      * rewrite Forall_forall. intros kv Hkv. apply (mul_entry_ok O Z_ring den L). right. left. apply (Hk k v); simpl; auto.
      * exact Hacc.
      * apply (IH (swf_tail _ _ _ Hr) Hk' acc' W1). intros d. specialize (Hb0 d). rewrite C1. unfold padd.
        rewrite mul_row_addends. rewrite !pmul_pmono_l in *. unfold pabs at 1 in Hb0. cbn [radd rmul r0 Z_ring] in *.
        destruct (Nat.ltb d (N.to_nat k)); [lia|]. rewrite <- Z.abs_mul in Hb0. lia.
Qed.

(** ** sparse evaluation *)

Lemma Zabs_rpow x n : Z.abs (@rpow Z_ring x n) = @rpow Z_ring (Z.abs x) n.
Proof. induction n as [|n IH]; [reflexivity|]. cbn [rpow rmul Z_ring]. rewrite Z.abs_mul, IH. reflexivity. Qed.

Lemma sparse_eval_fit m x v : swf m -> Forall (fun kv => (fst kv < 2 ^ 32)%N /\ exists p, upow O x (fst kv) = Ok p) m ->
  @is_value Z_ring (pabs (sc m)) (Z.abs (den x)) v -> v <= B -> exists r, sparse_eval O m x = Ok r.
Proof.
  intros Hm Hk Hv Hb. unfold sparse_eval.
  assert (G : forall s, Z.abs (den s) + v <= B -> exists r, foldM (eval_step O x) s m = Ok r).
  2:{ apply (G (zero O)). rewrite (lw_zero _ _ _ L). cbn [r0 Z_ring]. lia. }
  clear Hb. revert v Hv. induction m as [|[k c] m IH]; intros v Hv s Hb; cbn [foldM]; [eauto|].
  inversion Hk as [|? ? (K1 & p & Hp) Hk']; subst. cbn [fst] in K1, Hp.
  assert (exists w, @is_value Z_ring (pabs (sc m)) (Z.abs (den x)) w) as (w & Hw).
  { destruct Hv as (n & Hn & _). eexists. exists n. split; [|reflexivity]. intros i Hi. specialize (Hn i Hi).
    rewrite (pabs_scons k c m Hm) in Hn. unfold padd, pmono, pabs in Hn |- *. cbn [radd r0 Z_ring] in *.
    destruct (Nat.eqb i (N.to_nat k)); lia. }
  assert (Ev : v = Z.abs (den c * @rpow Z_ring (den x) (N.to_nat k)) + w).
  { apply (@is_value_fun Z_ring _ _ _ _ Hv). eapply is_value_ext; [apply peq_sym, (pabs_scons k c m Hm)|].
    rewrite Z.abs_mul, Zabs_rpow. exact (@is_value_padd Z_ring _ _ _ _ _ (@is_value_pmono Z_ring (Z.abs (den c)) (N.to_nat k) (Z.abs (den x))) Hw). }
  assert (Hw0 : 0 <= w).
  { destruct Hw as (n & _ & ->). apply sumn_nonneg. intros i _. unfold pabs. rewrite <- Zabs_rpow. cbn [rmul Z_ring]. nia. }
  pose proof (lw_upow _ _ _ L _ _ _ K1 Hp) as Dp.
  unfold eval_step at 1. cbn [fst snd]. rewrite Hp. cbn [bind].
  destruct (mul_ok c p) as (q & Hq & Dq). { rewrite Dp. cbn [car Z_ring] in *. lia. }
  rewrite Hq. cbn [bind]. destruct (add_ok s q) as (s' & Hs & Ds). { rewrite Dq, Dp. cbn [car Z_ring] in *. lia. }
  rewrite Hs. cbn [bind]. apply (IH (swf_tail _ _ _ Hm) Hk' w Hw). rewrite Ds, Dq, Dp. cbn [car Z_ring] in *. lia.
Qed.

(** ** fixed-shape evaluation *)

Lemma mul_0_ok a b : 0 <= B -> den a * den b = 0 -> exists c, mul O a b = Ok c /\ den c = 0.
Proof. intros HB H. destruct (mul_ok a b) as (c & Hc & Dc); [rewrite H; exact HB|]. exists c. split; [exact Hc|lia]. Qed.
Lemma add_0_ok a b : den a = 0 -> exists c, add O a b = Ok c /\ den c = den b.
Proof.
  intros H. destruct (proj2 (fo_add _ _ _ _ F a b)) as (c & Hc).
  - cbn [radd Z_ring]. rewrite H, Z.add_0_l. apply (fo_den _ _ _ _ F).
  - exists c. split; [exact Hc|]. rewrite (lw_add _ _ _ L _ _ _ Hc). cbn [radd Z_ring]. lia.
Qed.

Lemma bino_eval_fit b x v : @is_value Z_ring (pabs (bpoly Z_ring den b)) (Z.abs (den x)) v -> v <= B -> exists r, bino_eval O b x = Ok r.
Proof.
  intros Hv HB. assert (Ev : v = Z.abs (den (bc1 b)) + Z.abs (den (bc0 b)) * Z.abs (den x)).
  { apply (@is_value_fun Z_ring _ _ _ _ Hv). exists 2%nat. split.
    - intros i Hi. unfold pabs, bpoly. rewrite dcoef_overflow by (simpl; lia). reflexivity.
    - unfold pabs, bpoly. cbn. lia. }
  unfold bino_eval. destruct (mul_ok x (bc0 b)) as (p & Hp & Dp); [lia|]. rewrite Hp. cbn [bind].
  destruct (add_ok p (bc1 b)) as (r & Hr & _); [lia|]. eauto.
Qed.

Lemma trino_eval_fit b x v : @is_value Z_ring (pabs (tpoly Z_ring den b)) (Z.abs (den x)) v -> v <= B -> exists r, trino_eval O b x = Ok r.
Proof.
  intros Hv HB. assert (Ev : v = Z.abs (den (tc2 b)) + Z.abs (den (tc1 b)) * Z.abs (den x) + Z.abs (den (tc0 b)) * (Z.abs (den x) * Z.abs (den x))).
  { apply (@is_value_fun Z_ring _ _ _ _ Hv). exists 3%nat. split.
    - intros i Hi. unfold pabs, tpoly. rewrite dcoef_overflow by (simpl; lia). reflexivity.
    - unfold pabs, tpoly. cbn. lia. }
  unfold trino_eval. destruct (Z.eq_dec (den x) 0) as [E|E].
  - destruct (mul_0_ok (tc0 b) x) as (p & Hp & Dp); [lia|lia|]. rewrite Hp. cbn [bind].
    destruct (add_0_ok p (tc1 b) Dp) as (s & Hs & Ds). rewrite Hs. cbn [bind].
    destruct (mul_0_ok x s) as (q & Hq & Dq); [lia|lia|]. rewrite Hq. cbn [bind].
    destruct (add_0_ok q (tc2 b) Dq) as (r & Hr & _). eauto.
  - destruct (mul_ok (tc0 b) x) as (p & Hp & Dp); [nia|]. rewrite Hp. cbn [bind].
    destruct (add_ok p (tc1 b)) as (s & Hs & Ds); [nia|]. rewrite Hs. cbn [bind].
    destruct (mul_ok x s) as (q & Hq & Dq); [rewrite Ds, Dp; nia|]. rewrite Hq. cbn [bind].
    destruct (add_ok q (tc2 b)) as (r & Hr & _); [rewrite Dq, Ds, Dp; nia|]. eauto.
Qed.

(** ** dense derivative *)

Hypothesis Hup : forall a, den a <= B.

Lemma deriv_loop_fit l : forall deg, den deg = Z.of_nat (S (length l)) ->
  (forall d, (d < length l)%nat -> fits (Z.of_nat (S d) * dc l d)) -> exists r, deriv_loop O deg l = Ok r.
Proof.
  induction l as [|c l IH]; intros deg Hd H; cbn [deriv_loop]; [eauto|]. simpl length in *.
  destruct (proj2 (fo_sub _ _ _ _ F deg (one O))) as (deg' & H1).
  { rewrite (lw_one _ _ _ L), Hd. cbn [rsub Z_ring r1]. apply Hfit; [|right; lia]. pose proof (Hup deg). lia. }
  pose proof (lw_sub _ _ _ L _ _ _ H1) as H2. rewrite (lw_one _ _ _ L), Hd in H2. cbn [rsub Z_ring r1] in H2.
  rewrite H1. cbn [bind].
  destruct (proj2 (fo_mul _ _ _ _ F c deg')) as (p & Hp).
  { rewrite H2. specialize (H (length l) ltac:(lia)). rewrite dcoef_cons, Nat.eqb_refl in H. cbn [rmul Z_ring].
    replace (den c * (Z.of_nat (S (S (length l))) - 1)) with (Z.of_nat (S (length l)) * den c) by lia. exact H. }
  rewrite Hp. cbn [bind]. destruct (IH deg') as (r & Hr).
  - lia.
  - intros d Hlt. specialize (H d ltac:(lia)). rewrite dcoef_cons in H.
    destruct (Nat.eqb_spec d (length l)); [lia|exact H].
  - rewrite Hr. cbn [bind]. eauto.
Qed.

Lemma dense_derivative_fit l : vec_ok O l -> of_cont O (len (strip O l)) <> None ->
  (forall d, fits (@pderiv Z_ring (dc l) d)) -> exists r, dense_derivative O l = Ok r.
Proof.
  intros Hv Hc H. rewrite dense_derivative_unfold.
  pose proof (vec_ok_usize O Z_ring den L l Hv) as Hu.
  destruct (of_cont O (len (strip O l))) as [deg|] eqn:E; [|congruence]. cbn [expect bind].
  pose proof (lw_cont _ _ _ L _ _ Hu E) as Hdeg. rewrite Z_of_nat_ring in Hdeg.
  pose proof (split_last_spec (strip O l)) as Hs. destruct (split_last (strip O l)) as [[x i]|]; [|eauto].
  apply deriv_loop_fit.
  - rewrite Hdeg, Hs. unfold len. rewrite app_length. simpl. lia.
  - intros d Hd. specialize (H d). unfold pderiv in H. rewrite Z_of_nat_ring in H.
    rewrite <- (strip_coef O Z_ring den L l), Hs, dcoef_snoc in H. exact H.
Qed.

End Bounded.
