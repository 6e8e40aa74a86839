(** Property C103 for sparse polynomials. *)

From Coq Require Import List NArith ZArith Reals Lia Bool Arith Sorted.
From Coq Require Import ZifyBool ZifyNat ZifyN.
From Flocq Require Import Core BinarySingleNaN.
From Verif Require Import Base Num Spec Laws Terms Dense Sparse SparseFacts SparseArith.
From Verif Require Import Floats FloatFacts FloatCoef P_FloatErr P_FloatRep P_FloatPow P_FloatPowi P_FloatMirror.
Import ListNotations.

(** ** Specification *)

(** The same degrees are stored in [a] and [b], and the coefficients of [b] are those of [a], with the sign changed
    throughout if [o], and in the odd degrees if [e]. *)
Definition smirrored {f} (e o : bool) (a b : bmap (flt f)) : Prop :=
  map fst b = map fst a /\ forall k, tw (xorb o (e && N.odd k)) (mcoef a k) (mcoef b k).

(** ** Lemmas *)

Section Maps.
Context (f : fty) (chk : bool) (powi : flt f -> N -> flt f).
Notation O := (float_num chk f powi).
Implicit Types m : bmap (flt f).

Definition sn (e o : bool) (k : N) : bool := xorb o (e && N.odd k).
Definition ent (e o : bool) (x y : N * flt f) : Prop := fst y = fst x /\ tw (sn e o (fst x)) (snd x) (snd y).
Definition srel (e o : bool) m m' : Prop := Forall2 (ent e o) m m'.

Lemma srel_keys e o m m' : srel e o m m' -> map fst m' = map fst m.
Proof. induction 1 as [|x y m m' [E _] _ IH]; [reflexivity|]. cbn. rewrite E, IH. reflexivity. Qed.

Lemma srel_get e o k m m' : srel e o m m' ->
  match m_get k m, m_get k m' with Some v, Some v' => tw (sn e o k) v v' | None, None => True | _, _ => False end.
Proof.
  induction 1 as [|[k1 v1] [k2 v2] m m' [E H] _ IH]; [exact I|]. cbn [fst snd m_get] in *. subst k2.
  destruct (N.eqb_spec k k1) as [->|]; [exact H|exact IH].
Qed.

Lemma srel_smirrored e o m m' : srel e o m m' -> smirrored e o m m'.
Proof.
  intros H. split; [apply (srel_keys _ _ _ _ H)|]. intros k. unfold mcoef. pose proof (srel_get e o k m m' H) as K.
  destruct (m_get k m), (m_get k m'); try (destruct K; fail); [exact K|apply tw_zero].
Qed.
Lemma smirrored_srel e o m m' : swf m -> smirrored e o m m' -> srel e o m m'.
Proof.
  intros [Hs _] [E H]. pose proof (sorted_nodup m Hs) as N. clear Hs. revert m' E H N.
  induction m as [|[k v] m IH]; intros [|[k' v'] m'] E H N; try discriminate E; [constructor|].
  cbn [map fst] in E. injection E as -> E. cbn [map fst] in N. inversion N as [|? ? N1 N2]. subst. constructor.
  - split; [reflexivity|]. specialize (H k). unfold mcoef in H. cbn [m_get] in H. rewrite N.eqb_refl in H. exact H.
  - apply IH; [exact E| |exact N2]. intros j. specialize (H j). unfold mcoef in *. cbn [m_get] in H. destruct (N.eqb_spec j k) as [Ej|]; [|exact H]. clear H.
    assert (G : forall l : bmap (flt f), map fst l = map fst m -> m_get k l = None).
    { intros l El. apply m_get_notin. rewrite El. exact N1. }
    rewrite Ej, (G m eq_refl), (G m' E). apply tw_zero.
Qed.

Lemma insert_rel e o k v v' m m' : srel e o m m' -> tw (sn e o k) v v' -> srel e o (m_insert k v m) (m_insert k v' m').
Proof.
  intros H Hv. induction H as [|[k1 v1] [k2 v2] m m' [E H1] H IH]; cbn [m_insert].
  - constructor; [split; [reflexivity|exact Hv]|constructor].
  - cbn [fst snd] in *. subst k2. destruct (N.compare k k1).
    + constructor; [split; [reflexivity|exact Hv]|exact H].
    + constructor; [split; [reflexivity|exact Hv]|]. constructor; [split; [reflexivity|exact H1]|exact H].
    + constructor; [split; [reflexivity|exact H1]|exact IH].
Qed.

Lemma upsert_rel e o k none none' some some' m m' : srel e o m m' -> rrel (tw (sn e o k)) none none' ->
  (forall v v', tw (sn e o k) v v' -> rrel (tw (sn e o k)) (some v) (some' v')) ->
  rrel (srel e o) (m_upsert m k none some) (m_upsert m' k none' some').
Proof.
  intros H Hn Hs. unfold m_upsert. pose proof (srel_get e o k m m' H) as K.
  destruct (m_get k m) as [v|], (m_get k m') as [v'|]; try (destruct K; fail).
  - eapply rrel_bind; [apply (Hs _ _ K)|]. intros w w' Hw. apply insert_rel; assumption.
  - eapply rrel_bind; [exact Hn|]. intros w w' Hw. apply insert_rel; assumption.
Qed.

Lemma foldM_rel {S} (P : S -> S -> Prop) e o (g g' : S -> N * flt f -> res S) m m' : srel e o m m' ->
  (forall s s' k v v', P s s' -> tw (sn e o k) v v' -> rrel P (g s (k, v)) (g' s' (k, v'))) ->
  forall s s', P s s' -> rrel P (foldM g s m) (foldM g' s' m').
Proof.
  intros H Hg. induction H as [|[k v] [k' v'] m m' [E H1] H IH]; intros s s' Hs; [exact Hs|]. cbn [fst snd foldM] in *. subst k'.
  eapply rrel_bind; [apply (Hg s s' k v v' Hs H1)|]. exact IH.
Qed.

Lemma sn_mul e o1 o2 i j : sn e (xorb o1 o2) (i + j) = xorb (sn e o1 i) (sn e o2 j).
Proof. unfold sn. rewrite N.odd_add. destruct e, o1, o2, (N.odd i), (N.odd j); reflexivity. Qed.
(** Wrapping does not change parity. *)
Lemma odd_mod n : N.odd (n mod USIZE_MOD) = N.odd n.
Proof.
  rewrite (N.div_mod n USIZE_MOD) at 2 by discriminate. rewrite N.odd_add, N.odd_mul. change (N.odd USIZE_MOD) with false. destruct (N.odd (n mod USIZE_MOD)); reflexivity.
Qed.
Lemma uadd_odd i j d : uadd chk i j = Ok d -> N.odd d = N.odd (i + j).
Proof. unfold uadd. destruct (_ <=? _)%N; [intros H; apply Ok_inj in H; subst; reflexivity|]. destruct chk; [discriminate|]. intros H. apply Ok_inj in H. subst. apply odd_mod. Qed.

Lemma smul_rel e o1 o2 a a' b b' : srel e o1 a a' -> srel e o2 b b' -> rrel (srel e (xorb o1 o2)) (sparse_mul O a b) (sparse_mul O a' b').
Proof.
  intros Ha Hb. unfold sparse_mul. apply (foldM_rel (srel e (xorb o1 o2)) e o2 _ _ b b' Hb); [|constructor].
  intros s s' k v v' Hs Hv. cbn [fst snd is_zero float_num]. rewrite (tw_is_zero _ _ _ Hv). destruct (feqb v (fzero f)); [exact Hs|].
  unfold map_mul_row. apply (foldM_rel (srel e (xorb o1 o2)) e o1 _ _ a a' Ha); [|exact Hs].
  intros t t' j w w' Ht Hw. cbn [fst snd n_chk float_num]. apply rrel_same. intros d Hd. apply uadd_odd in Hd.
  assert (M : tw (sn e (xorb o1 o2) d) (fmul v w) (fmul v' w')).
  { replace (sn e (xorb o1 o2) d) with (xorb (sn e o2 k) (sn e o1 j)); [apply tw_mul; assumption|].
    unfold sn. rewrite Hd, N.odd_add. destruct e, o1, o2, (N.odd k), (N.odd j); reflexivity. }
  apply upsert_rel; [exact Ht|exact M|]. intros x x' Hx. cbn [mul add float_num bind rrel]. apply tw_add; assumption.
Qed.

Lemma spow_rel e o fuel : forall a a' k, srel e o a a' -> rrel (srel e (o && N.odd k)) (sparse_pow O fuel a k) (sparse_pow O fuel a' k).
Proof.
  assert (S2 : forall fuel o h h', srel e o h h' -> rrel (srel e false) (sparse_pow O fuel h 2) (sparse_pow O fuel h' 2)).
  { intros [|g] o' h h' Hh; [exact I|]. cbn [sparse_pow N.eqb Pos.eqb]. rewrite <- (xorb_nilpotent o'). apply smul_rel; assumption. }
  revert o. induction fuel as [|g IH]; intros o a a' k Ha; [exact I|]. cbn [sparse_pow].
  destruct (N.eqb_spec k 0) as [->|K0].
  { cbn [rrel N.odd]. rewrite andb_false_r. constructor; [|constructor]. split; [reflexivity|]. cbn [fst snd]. unfold sn. cbn [N.odd]. rewrite andb_false_r. apply tw_id. }
  destruct (N.eqb_spec k 1) as [->|K1]; [cbn [rrel N.odd]; rewrite andb_true_r; exact Ha|].
  destruct (N.eqb_spec k 2) as [->|K2]; [cbn [N.odd]; rewrite andb_false_r, <- (xorb_nilpotent o); apply smul_rel; assumption|].
  pose proof (N.div_mod k 2 ltac:(discriminate)) as D1. pose proof (N.mod_lt k 2 ltac:(discriminate)) as D2.
  destruct (N.eqb_spec (k mod 2) 0) as [E|E].
  - assert (Hodd : N.odd k = false).
    { rewrite <- N.negb_even. apply negb_false_iff, N.even_spec. exists (k / 2)%N. clear - D1 D2 E. revert D1 D2 E. generalize (k / 2)%N, (k mod 2)%N. intros q r. lia. }
    rewrite Hodd, andb_false_r. eapply rrel_bind; [apply (IH o a a' (k / 2)%N Ha)|]. intros h h' Hh. apply (S2 g _ h h' Hh).
  - assert (Hodd : N.odd k = true).
    { apply N.odd_spec. exists (k / 2)%N. clear - D1 D2 E. revert D1 D2 E. generalize (k / 2)%N, (k mod 2)%N. intros q r. lia. }
    assert (Heven : N.odd (k - 1) = false) by (rewrite N.sub_1_r, N.odd_pred, <- N.negb_odd, Hodd by lia; reflexivity).
    rewrite Hodd, andb_true_r. eapply rrel_bind; [apply (IH o a a' (k - 1)%N Ha)|]. rewrite Heven, andb_false_r. intros h h' Hh.
    rewrite <- (xorb_false_r o). apply smul_rel; assumption.
Qed.

Lemma sadd_rel e o a a' b b' : srel e o a a' -> srel e o b b' ->
  rrel (srel e o) (sparse_add_assign O a b) (sparse_add_assign O a' b') /\ rrel (srel e o) (sparse_add O a b) (sparse_add O a' b') /\
  rrel (srel e o) (sparse_sub O a b) (sparse_sub O a' b').
Proof.
  intros Ha Hb.
  assert (G : forall a a' b b', srel e o a a' -> srel e o b b' -> rrel (srel e o) (sparse_add_assign O a b) (sparse_add_assign O a' b')).
  { clear a a' b b' Ha Hb. intros a a' b b' Ha Hb. apply (foldM_rel (srel e o) e o _ _ b b' Hb); [|exact Ha]. intros s s' k v v' Hs Hv. cbn [fst snd].
    apply upsert_rel; [exact Hs|exact Hv|]. intros w w' Hw. cbn. apply tw_add; assumption. }
  split; [apply G; assumption|]. split.
  - apply (G _ _ a a'); [|exact Ha]. clear Ha.
    assert (F : forall s s', srel e o s s' -> srel e o (fold_left (fun m kv => m_insert (fst kv) (snd kv) m) b s) (fold_left (fun m kv => m_insert (fst kv) (snd kv) m) b' s')).
    { induction Hb as [|[k v] [k' v'] b b' [E H1] H IH]; intros s s' Hs; [exact Hs|]. cbn [fst snd fold_left] in *. subst k'. apply IH, insert_rel; assumption. }
    apply F. constructor.
  - apply (foldM_rel (srel e o) e o _ _ b b' Hb); [|exact Ha]. intros s s' k v v' Hs Hv. cbn [fst snd].
    apply upsert_rel; [exact Hs|cbn; apply tw_opp, Hv|]. intros w w' Hw. cbn. apply tw_sub; assumption.
Qed.

Lemma rebuild_rel e o s (g g' : flt f -> res (flt f)) m m' : srel e o m m' ->
  (forall t x x', tw t x x' -> rrel (tw (xorb t s)) (g x) (g' x')) ->
  rrel (srel e (xorb o s)) (sparse_map_rebuild g m) (sparse_map_rebuild g' m') /\ rrel (srel e (xorb o s)) (sparse_map_inplace g m) (sparse_map_inplace g' m').
Proof.
  intros H Hg. assert (E : forall k, sn e (xorb o s) k = xorb (sn e o k) s) by (intros k; unfold sn; destruct o, s, e, (N.odd k); reflexivity). split.
  - apply (foldM_rel (srel e (xorb o s)) e o _ _ m m' H); [|constructor]. intros t t' k v v' Ht Hv. cbn [fst snd].
    eapply rrel_bind; [apply (Hg _ _ _ Hv)|]. intros w w' Hw. apply insert_rel; [exact Ht|rewrite E; exact Hw].
  - unfold sparse_map_inplace. induction H as [|[k v] [k' v'] m m' [Ek H1] H IH]; [constructor|]. cbn [fst snd mapM] in *. subst k'.
    eapply rrel_bind with (P := ent e (xorb o s)).
    + eapply rrel_bind; [apply (Hg _ _ _ H1)|]. intros w w' Hw. split; [reflexivity|]. cbn [fst snd]. rewrite E. exact Hw.
    + intros x x' Hx. eapply rrel_bind; [exact IH|]. intros r r' Hr. constructor; assumption.
Qed.

Lemma sderiv_rel e o m m' : srel e o m m' -> rrel (srel e (xorb o e)) (sparse_derivative O m) (sparse_derivative O m').
Proof.
  intros H. apply (foldM_rel (srel e (xorb o e)) e o _ _ m m' H); [|constructor]. intros s s' k v v' Hs Hv. cbn [fst snd is_zero float_num n_chk].
  rewrite (tw_is_zero _ _ _ Hv). destruct (negb (feqb v (fzero f)) && negb (k =? 0)%N) eqn:B; [|exact Hs]. apply andb_true_iff in B. destruct B as [_ B].
  assert (Hk : (1 <= k)%N) by lia. unfold usub. destruct (N.leb_spec 1 k); [|lia]. cbn [bind]. apply rrel_same. intros n _. cbn [mul float_num bind rrel].
  apply insert_rel; [exact Hs|]. replace (sn e (xorb o e) (k - 1)) with (xorb (sn e o k) false); [apply tw_mul; [exact Hv|apply tw_id]|].
  unfold sn. rewrite N.sub_1_r, N.odd_pred, <- N.negb_odd by lia. destruct e, o, (N.odd k); reflexivity.
Qed.
Lemma sinteg_rel e o m m' : srel e o m m' -> rrel (srel e (xorb o e)) (sparse_integral O m) (sparse_integral O m').
Proof.
  intros H. apply (foldM_rel (srel e (xorb o e)) e o _ _ m m' H); [|constructor]. intros s s' k v v' Hs Hv. cbn [fst snd n_chk float_num].
  apply rrel_same. intros d Hd. apply uadd_odd in Hd. apply rrel_same. intros n _. cbn [div float_num bind rrel].
  apply insert_rel; [exact Hs|]. replace (sn e (xorb o e) d) with (xorb (sn e o k) false); [apply (tw_div _ false _ _ n Hv)|].
  unfold sn. rewrite Hd, N.odd_add. change (N.odd 1) with true. destruct e, o, (N.odd k); reflexivity.
Qed.

Lemma seval_rel e o m m' x : srel e o m m' -> (forall k, In k (map fst m) -> tw (e && N.odd k) (powi x k) (powi (flip e x) k)) ->
  rrel (tw o) (sparse_eval O m x) (sparse_eval O m' (flip e x)).
Proof.
  intros H Hp. unfold sparse_eval.
  assert (G : forall s s', tw o s s' -> rrel (tw o) (foldM (fun s kv => pw <- upow O x (fst kv) ;; p <- mul O (snd kv) pw ;; add O s p) s m)
    (foldM (fun s kv => pw <- upow O (flip e x) (fst kv) ;; p <- mul O (snd kv) pw ;; add O s p) s' m')).
  { induction H as [|[k v] [k' v'] m m' [E Hv] H IH]; intros s s' Hs; [exact Hs|]. cbn [fst snd] in *. subst k'.
    cbn [foldM fst snd upow mul add float_num bind]. apply IH; [intros j Hj; apply Hp; right; exact Hj|].
    apply tw_add; [exact Hs|]. replace o with (xorb (sn e o k) (e && N.odd k)) by (unfold sn; destruct e, o, (N.odd k); reflexivity).
    apply tw_mul; [exact Hv|apply Hp; left; reflexivity]. }
  apply G, tw_zero.
Qed.

(** Division, negation only. *)
Lemma sdegree_rel o m m' : srel false o m m' -> sparse_degree O m' = sparse_degree O m.
Proof.
  intros H. destruct H as [|[k v] [k' v'] m m' [E H1] H]; [reflexivity|]. cbn [fst snd] in *. subst k'. cbn [sparse_degree].
  assert (G : forall m m', srel false o m m' -> forall mt mt' md, feqb mt' (fzero f) = feqb mt (fzero f) ->
    snd (deg_loop O mt' md m') = snd (deg_loop O mt md m) /\ feqb (fst (deg_loop O mt' md m')) (fzero f) = feqb (fst (deg_loop O mt md m)) (fzero f)).
  { clear. induction 1 as [|[k v] [k' v'] m m' [E H1] H IH]; intros mt mt' md Hz; [auto|]. cbn [fst snd] in *. subst k'. cbn [deg_loop is_zero float_num].
    rewrite (tw_is_zero _ _ _ H1). destruct (_ && _); apply IH; [apply (tw_is_zero _ _ _ H1)|exact Hz]. }
  destruct (G m m' H v v' k (tw_is_zero _ _ _ H1)) as [G1 G2].
  destruct (deg_loop O v k m) as [mt md], (deg_loop O v' k m') as [mt' md']. cbn [fst snd is_zero float_num] in *. rewrite G1, G2. reflexivity.
Qed.
Lemma sfirst_rel o m m' : srel false o m m' ->
  match sparse_first_term O m, sparse_first_term O m' with
  | ZeroTerm, ZeroTerm => True
  | TTerm c d, TTerm c' d' => d' = d /\ c' = flip o c
  | _, _ => False
  end.
Proof.
  intros H. unfold sparse_first_term. rewrite (sdegree_rel _ _ _ H). destruct (sparse_degree O m) as [|d]; [exact I|].
  pose proof (srel_get false o d m m' H) as K. unfold sn in K. cbn [andb] in K. rewrite xorb_false_r in K.
  destruct (m_get d m) as [v|], (m_get d m') as [v'|]; try (destruct K; fail); [|exact I].
  unfold term_new. cbn [is_zero float_num]. rewrite (tw_is_zero _ _ _ K). destruct (feqb v (fzero f)) eqn:Z; [exact I|]. split; [reflexivity|].
  apply tw_exact; assumption.
Qed.
Lemma ssub_rel o1 o2 a a' b b' c c' : srel false o1 a a' -> srel false o2 b b' -> tw (xorb o1 o2) c c' ->
  rrel (srel false o1) (map_sub_w_scale O a b c) (map_sub_w_scale O a' b' c').
Proof.
  intros Ha Hb Hc. apply (foldM_rel (srel false o1) false o2 _ _ b b' Hb); [|exact Ha]. intros s s' k v v' Hs Hv. cbn [fst snd].
  unfold sn in Hv. cbn [andb] in Hv. rewrite xorb_false_r in Hv.
  assert (E : sn false o1 k = xorb o2 (xorb o1 o2)) by (unfold sn; destruct o1, o2; reflexivity).
  apply upsert_rel; [exact Hs| |]; rewrite E.
  - cbn. apply tw_mul; [apply tw_opp, Hv|exact Hc].
  - intros w w' Hw. cbn. apply tw_sub; [exact Hw|]. apply tw_mul; assumption.
Qed.
Lemma sdiv_loop_rel o1 o2 b b' lead db off fuel : forall c c' a a' q q' da,
  srel false o2 b b' -> srel false o1 a a' -> srel false (xorb o1 o2) q q' -> tw (xorb o1 o2) c c' ->
  rrel (fun s s' => srel false (xorb o1 o2) (fst s) (fst s') /\ srel false o1 (snd s) (snd s'))
    (sparse_div_loop O fuel b lead db off c da a q) (sparse_div_loop O fuel b' (flip o2 lead) db off c' da a' q').
Proof.
  induction fuel as [|g IH]; intros c c' a a' q q' da Hb Ha Hq Hc; [exact I|]. cbn [sparse_div_loop]. destruct (db <=? da)%N; [|cbn; auto].
  eapply rrel_bind; [apply (ssub_rel o1 o2 a a' b b' c c' Ha Hb Hc)|]. intros r r' Hr.
  eapply rrel_bind with (P := srel false (xorb o1 o2)).
  - unfold sparse_add_term. cbn [is_zero float_num]. rewrite (tw_is_zero _ _ _ Hc). destruct (feqb c (fzero f)); [exact Hq|].
    assert (E : sn false (xorb o1 o2) off = xorb o1 o2) by (unfold sn; cbn [andb]; apply xorb_false_r).
    apply upsert_rel; [exact Hq| |]; rewrite E; [exact Hc|]. intros w w' Hw. cbn. apply tw_add; assumption.
  - intros s s' Hs. pose proof (sfirst_rel o1 r r' Hr) as F.
    destruct (sparse_first_term O r) as [|c1 d1], (sparse_first_term O r') as [|c1' d1']; try (destruct F; fail); [cbn; auto|].
    destruct F as [-> ->]. cbn [div float_num bind]. apply IH; try assumption. apply tw_div, tw_flip.
Qed.
Lemma srem_loop_rel o1 o2 b b' lead db fuel : forall c c' a a' da,
  srel false o2 b b' -> srel false o1 a a' -> tw (xorb o1 o2) c c' ->
  rrel (srel false o1) (sparse_rem_loop O fuel b lead db c da a) (sparse_rem_loop O fuel b' (flip o2 lead) db c' da a').
Proof.
  induction fuel as [|g IH]; intros c c' a a' da Hb Ha Hc; [exact I|]. cbn [sparse_rem_loop]. destruct (db <=? da)%N; [|exact Ha].
  eapply rrel_bind; [apply (ssub_rel o1 o2 a a' b b' c c' Ha Hb Hc)|]. intros r r' Hr. pose proof (sfirst_rel o1 r r' Hr) as F.
  destruct (sparse_first_term O r) as [|c1 d1], (sparse_first_term O r') as [|c1' d1']; try (destruct F; fail); [exact Hr|].
  destruct F as [-> ->]. cbn [div float_num bind]. apply IH; try assumption. apply tw_div, tw_flip.
Qed.
Lemma sdiv_rel o1 o2 fuel a a' b b' : srel false o1 a a' -> srel false o2 b b' ->
  rrel (fun s s' => srel false (xorb o1 o2) (fst s) (fst s') /\ srel false o1 (snd s) (snd s')) (sparse_div_mod O fuel a b) (sparse_div_mod O fuel a' b') /\
  rrel (srel false o1) (sparse_rem O fuel a b) (sparse_rem O fuel a' b').
Proof.
  intros Ha Hb. unfold sparse_div_mod, sparse_rem. pose proof (sfirst_rel o2 b b' Hb) as F. pose proof (sfirst_rel o1 a a' Ha) as G.
  destruct (sparse_first_term O b) as [|lb db], (sparse_first_term O b') as [|lb' db']; try (destruct F; fail); [split; reflexivity|]. destruct F as [-> ->].
  destruct (sparse_first_term O a) as [|la da], (sparse_first_term O a') as [|la' da']; try (destruct G; fail).
  - split; [cbn; split; [constructor|exact Ha]|exact Ha].
  - destruct G as [-> ->]. destruct (da <? db)%N; [split; [cbn; split; [constructor|exact Ha]|exact Ha]|]. cbn [div float_num bind n_chk]. split.
    + apply rrel_same. intros off _. apply sdiv_loop_rel; try assumption; [constructor|apply tw_div, tw_flip].
    + apply srem_loop_rel; try assumption. apply tw_div, tw_flip.
Qed.
End Maps.

Lemma powi_loop_rel {f} b : forall s t (a a' m m' : flt f), tw s a a' -> tw t m m' ->
  tw (xorb t (s && N.odd (N.pos b))) (powi_loop b a m) (powi_loop b a' m').
Proof.
  induction b as [b IH|b IH|]; intros s t a a' m m' Ha Hm; cbn [powi_loop].
  - assert (Q : tw false (fmul a a) (fmul a' a')) by (rewrite <- (xorb_nilpotent s); apply tw_mul; exact Ha).
    specialize (IH false (xorb t s) _ _ _ _ Q (tw_mul _ _ _ _ _ _ Hm Ha)). cbn [andb] in IH. rewrite xorb_false_r in IH.
    cbn [N.odd]. rewrite andb_true_r. exact IH.
  - assert (Q : tw false (fmul a a) (fmul a' a')) by (rewrite <- (xorb_nilpotent s); apply tw_mul; exact Ha).
    specialize (IH false t _ _ _ _ Q Hm). cbn [N.odd]. rewrite andb_false_r. exact IH.
  - cbn [N.odd]. rewrite andb_true_r. apply tw_mul; assumption.
Qed.

(** ** Theorems *)

(** The same calls on two sparse polynomials and on their mirror images, in either build profile. *)
Theorem C103_sparse : forall chk f powi e o1 o2 (a a' b b' : bmap (flt f)), let O := float_num chk f powi in
  smirrored e o1 a a' -> smirrored e o2 b b' -> swf a -> swf b ->
  (o1 = o2 -> rrel (smirrored e o1) (sparse_add O a b) (sparse_add O a' b') /\ rrel (smirrored e o1) (sparse_add_assign O a b) (sparse_add_assign O a' b') /\
              rrel (smirrored e o1) (sparse_sub O a b) (sparse_sub O a' b')) /\
  rrel (smirrored e o1) (sparse_neg O a) (sparse_neg O a') /\
  (forall s c, rrel (smirrored e (xorb o1 s)) (sparse_scale O a c) (sparse_scale O a' (flip s c)) /\
               rrel (smirrored e (xorb o1 s)) (sparse_div_scalar O a c) (sparse_div_scalar O a' (flip s c)) /\
               rrel (smirrored e (xorb o1 s)) (sparse_scale_assign O a c) (sparse_scale_assign O a' (flip s c)) /\
               rrel (smirrored e (xorb o1 s)) (sparse_div_scalar_assign O a c) (sparse_div_scalar_assign O a' (flip s c))) /\
  rrel (smirrored e (xorb o1 o2)) (sparse_mul O a b) (sparse_mul O a' b') /\
  (forall fuel k, rrel (smirrored e (o1 && N.odd k)) (sparse_pow O fuel a k) (sparse_pow O fuel a' k)) /\
  rrel (smirrored e (xorb o1 e)) (sparse_derivative O a) (sparse_derivative O a') /\
  rrel (smirrored e (xorb o1 e)) (sparse_integral O a) (sparse_integral O a').
Proof.
  intros chk f powi e o1 o2 a a' b b' O Ha Hb Wa Wb. apply smirrored_srel in Ha, Hb; try assumption.
  assert (U : forall o x y, rrel (srel f e o) x y -> rrel (smirrored e o) x y).
  { intros o x y. apply rrel_impl. intros s s'. apply srel_smirrored. }
  split. { intros <-. destruct (sadd_rel f chk powi e o1 a a' b b' Ha Hb) as (H1 & H2 & H3). repeat split; apply U; assumption. }
  split. { apply U. unfold sparse_neg. destruct (rebuild_rel f e o1 false (neg O) (neg O) a a' Ha) as [H _]; [|rewrite xorb_false_r in H; exact H].
    intros t x x' Hx. rewrite xorb_false_r. apply (tw_opp _ _ _ Hx). }
  split. { intros s c.
    assert (M : forall t x x', tw t x x' -> rrel (tw (xorb t s)) (mul O x c) (mul O x' (flip s c))) by (intros t x x' Hx; cbn; apply tw_mul; [exact Hx|apply tw_flip]).
    assert (D : forall t x x', tw t x x' -> rrel (tw (xorb t s)) (div O x c) (div O x' (flip s c))) by (intros t x x' Hx; cbn; apply tw_div; exact Hx).
    repeat split; apply U; [apply (rebuild_rel f e o1 s _ _ a a' Ha M)|apply (rebuild_rel f e o1 s _ _ a a' Ha D)|apply (rebuild_rel f e o1 s _ _ a a' Ha M)|apply (rebuild_rel f e o1 s _ _ a a' Ha D)]. }
  split; [apply U, smul_rel; assumption|]. split; [intros fuel k; apply U, spow_rel, Ha|].
  split; apply U; [apply sderiv_rel, Ha|apply sinteg_rel, Ha].
Qed.

(** Evaluation, for any powers that take the sign of the base as they should. *)
Theorem C103_sparse_eval : forall chk f powi e o (a a' : bmap (flt f)) x, let O := float_num chk f powi in
  smirrored e o a a' -> swf a -> (forall k, In k (map fst a) -> tw (N.odd k) (powi x k) (powi (fneg x) k)) ->
  rrel (tw o) (sparse_eval O a x) (sparse_eval O a' (flip e x)).
Proof.
  intros chk f powi e o a a' x O H W Hp. apply smirrored_srel in H; [|exact W]. apply seval_rel; [exact H|].
  intros k Hk. destruct e; [apply (Hp k Hk)|apply tw_id].
Qed.

(** Division by a sparse polynomial, for negated operands. *)
Theorem C103_sparse_division : forall chk f powi o1 o2 fuel (a a' b b' : bmap (flt f)), let O := float_num chk f powi in
  smirrored false o1 a a' -> smirrored false o2 b b' -> swf a -> swf b ->
  rrel (fun s s' => smirrored false (xorb o1 o2) (fst s) (fst s') /\ smirrored false o1 (snd s) (snd s')) (sparse_div_mod O fuel a b) (sparse_div_mod O fuel a' b') /\
  rrel (smirrored false o1) (sparse_rem O fuel a b) (sparse_rem O fuel a' b').
Proof.
  intros chk f powi o1 o2 fuel a a' b b' O Ha Hb Wa Wb. apply smirrored_srel in Ha, Hb; try assumption.
  destruct (sdiv_rel f chk powi o1 o2 fuel a a' b b' Ha Hb) as [H1 H2]. split.
  - eapply rrel_impl; [|exact H1]. intros s s' [K1 K2]. split; apply srel_smirrored; assumption.
  - eapply rrel_impl; [|exact H2]. intros s s'. apply srel_smirrored.
Qed.

(** Rust's own powers do so, for exponents that fit in an i32. *)
Theorem C103_powi : forall f (x : flt f) k, (k < 2 ^ 31)%N -> tw (N.odd k) (f_upow rt_powi x k) (f_upow rt_powi (fneg x) k).
Proof.
  intros f x k Hk. unfold f_upow. rewrite as_i32_small by exact Hk. destruct k as [|b]; [apply tw_id|]. cbn [Z.of_N rt_powi].
  pose proof (powi_loop_rel b true false x (fneg x) (f_of_Z f 1) (f_of_Z f 1) (tw_neg x) (tw_id _)) as H. rewrite xorb_false_l in H. exact H.
Qed.

(** With those powers: an even or odd sparse polynomial takes equal or opposite values at opposite points. *)
Theorem C103_sparse_even_odd : forall chk f (a : bmap (flt f)) x v, let O := float_num chk f (f_upow rt_powi) in
  swf a -> (forall k, In k (map fst a) -> (k < 2 ^ 31)%N) -> sparse_eval O a x = Ok v ->
  ((forall k, N.odd k = true -> feqb (mcoef a k) (fzero f) = true) -> exists w, sparse_eval O a (fneg x) = Ok w /\ fsame w v) /\
  ((forall k, N.odd k = false -> feqb (mcoef a k) (fzero f) = true) -> exists w, sparse_eval O a (fneg x) = Ok w /\ fsame w (fneg v)).
Proof.
  intros chk f a x v O W Hk Hv.
  assert (G : forall o, smirrored true o a a -> exists w, sparse_eval O a (fneg x) = Ok w /\ tw o v w).
  { intros o H. pose proof (C103_sparse_eval chk f (f_upow rt_powi) true o a a x H W (fun k K => C103_powi f x k (Hk k K))) as E. cbv zeta in E. fold O in E. rewrite Hv in E.
    cbn [flip] in E. destruct (sparse_eval O a (fneg x)) as [w| |]; try (destruct E; fail). exists w. auto. }
  assert (Z : forall o c, feqb c (fzero f) = true -> tw o c c).
  { intros o c Hc. right. split; [exact Hc|]. apply feqb_zero in Hc. destruct Hc as [s ->]. destruct o; reflexivity. }
  split; intros Hz; [apply (G false)|apply (G true)]; (split; [reflexivity|]); intros k; cbn [andb xorb]; destruct (N.odd k) eqn:E; cbn [negb]; try apply tw_id; apply Z, Hz, E.
Qed.

(** 2x^2 - 3x + 5 and -2x^2 - 3x - 5; x^3 + x at 2 and at -2; 4x^2 + 2 by 2x^2 - 1. *)
Example C103_sparse_case : forall chk, let O := float_num chk F64 (f_upow rt_powi) in
  let z := f_of_Z F64 in let sf := map (fun kv : N * flt F64 => (fst kv, B2SF (snd kv))) in
  let a := [(0%N, z 5%Z); (1%N, z (-3)%Z); (2%N, z 2%Z)] in let a' := [(0%N, fneg (z 5%Z)); (1%N, z (-3)%Z); (2%N, fneg (z 2%Z))] in
  let b := [(1%N, z 1%Z); (3%N, z 1%Z)] in
  smirrored true true a a' /\ swf a /\
  rmap B2SF (sparse_eval O b (z 2%Z)) = Ok (B2SF (z 10%Z)) /\ rmap B2SF (sparse_eval O b (fneg (z 2%Z))) = Ok (B2SF (z (-10)%Z)) /\
  rmap sf (sparse_mul O a b) = Ok (sf [(1%N, z 5%Z); (2%N, z (-3)%Z); (3%N, z 7%Z); (4%N, z (-3)%Z); (5%N, z 2%Z)]) /\
  rmap sf (sparse_mul O a' b) = Ok (sf [(1%N, z (-5)%Z); (2%N, z (-3)%Z); (3%N, z (-7)%Z); (4%N, z (-3)%Z); (5%N, z (-2)%Z)]) /\
  rmap (fun s => (sf (fst s), sf (snd s))) (sparse_div_mod O 3 [(0%N, z 2%Z); (2%N, z 4%Z)] [(0%N, z (-1)%Z); (2%N, z 2%Z)]) =
    Ok (sf [(0%N, z 2%Z)], sf [(0%N, z 4%Z); (2%N, z 0%Z)]).
Proof.
  intros chk O z sf a a' b. split; [|split].
  - apply srel_smirrored. unfold a, a'. repeat (constructor; [split; [reflexivity|cbn [fst snd sn]; (apply tw_neg || apply tw_id)]|]). constructor.
  - split; repeat constructor; vm_compute; discriminate || reflexivity.
  - subst O z sf a a' b. destruct chk; repeat split; vm_compute; reflexivity.
Qed.

Print Assumptions C103_sparse.
Print Assumptions C103_sparse_eval.
Print Assumptions C103_sparse_division.
Print Assumptions C103_powi.
Print Assumptions C103_sparse_even_odd.
