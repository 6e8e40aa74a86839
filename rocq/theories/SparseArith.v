(** Sparse polynomials: sums, differences, products, powers, scalar operations. *)

From Coq Require Import List NArith ZArith Lia Bool Ring Arith Sorted.
From Coq Require Import ZifyBool ZifyNat ZifyN.
From Verif Require Import Base Num Spec SpecFacts Laws Terms Dense DenseFacts DenseMul Sparse SparseFacts.
Import ListNotations.

Lemma uadd_le_max chk a b c : uadd chk a b = Ok c -> (c <= USIZE_MAX)%N.
Proof.
  unfold uadd. destruct (N.leb_spec (a + b) USIZE_MAX) as [H0|H0]; intros H; [inv_ok; assumption|].
  destruct chk; [discriminate|]. inv_ok. assert (H1 : (USIZE_MOD <> 0)%N) by (unfold USIZE_MOD; discriminate).
  pose proof (N.mod_lt (a + b) USIZE_MOD H1). unfold USIZE_MAX, USIZE_MOD in *. lia.
Qed.

Section SparseArith.
Context {T : Type} (O : num T) (R : comring) (den : T -> car R) (L : lawful O R den).
Add Ring Rring3 : (r_theory R).
Notation sc := (scoef R den).

(** ** Folds of insert-or-update *)
Section Fold.
Context {A : Type} (kf : A -> res N) (none : A -> res T) (some : A -> T -> res T).
Context (key : A -> N) (cf : A -> car R).

Definition upsert_step (m : bmap T) (e : A) : res (bmap T) :=
  d <- kf e ;; m_upsert m d (none e) (some e).

Definition entry_ok (e : A) : Prop :=
  (forall d, kf e = Ok d -> (d <= USIZE_MAX)%N /\ (d = key e \/ cf e = r0)) /\
  (forall v, none e = Ok v -> den v = cf e) /\
  (forall x v, some e x = Ok v -> den v = radd (den x) (cf e)).

Lemma upsert_step_spec m e m' : swf m -> entry_ok e -> upsert_step m e = Ok m' ->
  swf m' /\ peq (sc m') (padd (sc m) (pmono (cf e) (N.to_nat (key e)))).
Proof.
  intros Hm (H1 & H2 & H3) H. unfold upsert_step in H. inv_ok.
  destruct (H1 _ E) as [Hd Hk].
  destruct (m_upsert_spec R den m v (none e) (some e) m' (fun x => radd x (cf e)) Hm Hd) as [W C]; auto.
  - intros x Hx. rewrite (H2 _ Hx). ring.
  - split; [exact W|]. intros d. rewrite C. unfold padd, pmono. destruct Hk as [->|Hz].
    + destruct (Nat.eqb d (N.to_nat (key e))); ring.
    + rewrite Hz. destruct (Nat.eqb d (N.to_nat v)), (Nat.eqb d (N.to_nat (key e))); ring.
Qed.

Definition addends (es : list A) : list (car R * N) := map (fun e => (cf e, key e)) es.

Lemma fold_upsert_spec es : forall m m', swf m -> Forall entry_ok es -> foldM upsert_step m es = Ok m' ->
  swf m' /\ peq (sc m') (padd (sc m) (terms_coef (addends es))).
Proof.
  induction es as [|e es IH]; intros m m' Hm Hf H; simpl in H; inv_ok.
  - split; [exact Hm|]. intros d. unfold padd. simpl. unfold pzero. ring.
  - inversion Hf; subst. destruct (upsert_step_spec m e v Hm H2 E) as [W C].
    destruct (IH v m' W H3 H) as [W' C']. split; [exact W'|].
    intros d. rewrite C'. unfold padd at 1. rewrite C. unfold padd. simpl. unfold padd. ring.
Qed.

Lemma fold_upsert_total es : forall m, Forall (fun e => (exists d, kf e = Ok d) /\ (exists v, none e = Ok v) /\
    forall x, exists v, some e x = Ok v) es -> exists m', foldM upsert_step m es = Ok m'.
Proof.
  induction es as [|e es IH]; intros m Hf; simpl; [eauto|]. inversion Hf as [|? ? (H1 & H2 & H3) H4]; subst.
  destruct H1 as (d & Hd), H2 as (v & Hv). unfold upsert_step at 1. rewrite Hd. cbn [bind]. unfold m_upsert.
  destruct (m_get d m) as [x|].
  - destruct (H3 x) as (w & ->). cbn [bind]. auto.
  - rewrite Hv. cbn [bind]. auto.
Qed.

(** When the keys are distinct, each target coefficient is touched once. *)
Lemma fold_upsert_returns (fits : car R -> Prop) es : (forall x, fits (den x)) -> forall m, swf m ->
  Forall (fun e => kf e = Ok (key e) /\ (key e <= USIZE_MAX)%N /\ entry_ok e /\
    ((exists v, none e = Ok v) <-> fits (cf e)) /\
    (forall x, (exists v, some e x = Ok v) <-> fits (radd (den x) (cf e)))) es ->
  NoDup (map key es) ->
  ((exists m', foldM upsert_step m es = Ok m') <->
   forall d, fits (padd (sc m) (terms_coef (addends es)) d)).
Proof.
  intros Hfit. assert (Hf0 : fits r0) by (rewrite <- (lw_zero _ _ _ L); apply Hfit).
  assert (Hfm : forall m d, swf m -> fits (sc m d)).
  { intros m d Hm. rewrite scoef_get by apply Hm. destruct (m_get (N.of_nat d) m); auto. }
  induction es as [|e es IH]; intros m Hm Hf Hd.
  - simpl. split; [|eauto]. intros _ d. unfold padd, pzero. replace (radd (sc m d) r0) with (sc m d) by ring. auto.
  - inversion Hf as [|? ? (K & KM & EO & HN & HS) Hf']; subst. simpl in Hd. inversion Hd as [|? ? Hni Hd']; subst.
    assert (T0 : terms_coef (addends es) (N.to_nat (key e)) = r0).
    { apply terms_coef_notin. rewrite N2Nat.id. unfold addends. rewrite map_map. exact Hni. }
    assert (Hstep : (exists m1, upsert_step m e = Ok m1) <-> fits (radd (sc m (N.to_nat (key e))) (cf e))).
    { unfold upsert_step. rewrite K. cbn [bind]. rewrite (m_upsert_returns m (key e) (none e) (some e)).
      rewrite scoef_get by apply Hm. rewrite N2Nat.id. destruct (m_get (key e) m) as [x|].
      - apply HS.
      - rewrite HN. replace (radd r0 (cf e)) with (cf e) by ring. tauto. }
    split.
    + intros (m' & H). simpl in H. inv_ok.
      destruct (upsert_step_spec m e v Hm EO E) as [W C].
      pose proof (proj1 (IH v W Hf' Hd') (ex_intro _ _ H)) as F. intros d. specialize (F d).
      unfold padd in F. rewrite C in F. unfold padd in F. simpl. unfold padd at 1 2.
      replace (radd (sc m d) (radd (pmono (cf e) (N.to_nat (key e)) d) (terms_coef (addends es) d)))
        with (radd (radd (sc m d) (pmono (cf e) (N.to_nat (key e)) d)) (terms_coef (addends es) d)) by ring.
      exact F.
    + intros F. destruct (proj2 Hstep) as (m1 & Hm1).
      { specialize (F (N.to_nat (key e))). unfold padd in F. simpl in F. unfold padd in F. rewrite T0 in F.
        unfold pmono in F. rewrite Nat.eqb_refl in F.
        replace (radd (cf e) r0) with (cf e) in F by ring. exact F. }
      simpl. rewrite Hm1. cbn [bind]. destruct (upsert_step_spec m e m1 Hm EO Hm1) as [W C].
      apply (IH m1 W Hf' Hd'). intros d. specialize (F d). unfold padd in *. rewrite C. unfold padd.
      simpl in F. unfold padd in F.
      replace (radd (radd (sc m d) (pmono (cf e) (N.to_nat (key e)) d)) (terms_coef (addends es) d))
        with (radd (sc m d) (radd (pmono (cf e) (N.to_nat (key e)) d) (terms_coef (addends es) d))) by ring.
      exact F.
Qed.

End Fold.

Lemma terms_coef_map_ext {A} (f g : A -> car R * N) l : (forall a, In a l -> f a = g a) ->
  terms_coef (map f l) = terms_coef (map g l).
Proof. intros H. f_equal. apply map_ext_in, H. Qed.

Lemma terms_coef_opp l : peq (terms_coef (map (fun t => (ropp (fst t), snd t)) l)) (popp (@terms_coef R l)).
Proof.
  induction l as [|[c k] l IH]; intros d; simpl; unfold padd, popp, pmono, pzero; [ring|].
  rewrite IH. unfold popp. destruct (Nat.eqb d (N.to_nat k)); ring.
Qed.

Lemma terms_coef_scale l s : peq (terms_coef (map (fun t => (rmul (fst t) s, snd t)) l)) (pscale (@terms_coef R l) s).
Proof.
  induction l as [|[c k] l IH]; intros d; simpl; unfold padd, pscale, pmono, pzero; [ring|].
  rewrite IH. unfold pscale. destruct (Nat.eqb d (N.to_nat k)); ring.
Qed.

Lemma sorted_nodup (m : bmap T) : StronglySorted key_lt m -> NoDup (map fst m).
Proof.
  induction 1 as [|kv m Hs IH Hf]; simpl; constructor; auto.
  intros Hi. apply in_map_iff in Hi. destruct Hi as (kv' & E & Hi). rewrite Forall_forall in Hf.
  specialize (Hf _ Hi). unfold key_lt in Hf. lia.
Qed.

(** ** Sums *)

Lemma add_fold_step (m : bmap T) kv :
  m_upsert m (fst kv) (Ok (snd kv)) (fun v => add O v (snd kv)) =
  upsert_step (fun kv : N * T => Ok (fst kv)) (fun kv => Ok (snd kv)) (fun kv v => add O v (snd kv)) m kv.
Proof. reflexivity. Qed.

Lemma add_entry_ok kv : (fst kv <= USIZE_MAX)%N ->
  entry_ok (fun kv : N * T => Ok (fst kv)) (fun kv => Ok (snd kv)) (fun kv v => add O v (snd kv)) fst (fun kv => den (snd kv)) kv.
Proof.
  intros H. split; [|split].
  - intros d Hd. inv_ok. auto.
  - intros v Hv. inv_ok. reflexivity.
  - intros x v Hv. apply (lw_add _ _ _ L _ _ _ Hv).
Qed.

Lemma sparse_add_assign_spec a b r : swf a -> swf b -> sparse_add_assign O a b = Ok r ->
  swf r /\ peq (sc r) (padd (sc a) (sc b)).
Proof.
  intros Ha Hb H. unfold sparse_add_assign in H.
  refine (fold_upsert_spec (fun kv => Ok (fst kv)) (fun kv => Ok (snd kv)) (fun kv v => add O v (snd kv)) fst (fun kv => den (snd kv)) b a r Ha _ H).
  eapply Forall_impl; [|apply Hb]. intros kv. apply add_entry_ok.
Qed.

Lemma fits_zero fits (F : fits_ops O R den fits) : fits r0.
Proof. rewrite <- (lw_zero _ _ _ L). apply (fo_den _ _ _ _ F). Qed.

Lemma sparse_add_assign_returns fits (F : fits_ops O R den fits) a b : swf a -> swf b ->
  (exists r, sparse_add_assign O a b = Ok r) <-> forall d, fits (padd (sc a) (sc b) d).
Proof.
  intros Ha Hb. unfold sparse_add_assign.
  refine (fold_upsert_returns (fun kv => Ok (fst kv)) (fun kv => Ok (snd kv)) (fun kv v => add O v (snd kv)) fst (fun kv => den (snd kv)) fits b (fo_den _ _ _ _ F) a Ha _ _).
  - eapply Forall_impl; [|apply Hb]. intros kv Hk. split; [reflexivity|]. split; [exact Hk|]. split; [apply add_entry_ok, Hk|]. split.
    + split; [intros _; apply (fo_den _ _ _ _ F)|eauto].
    + intros x. apply (fo_add _ _ _ _ F).
  - apply sorted_nodup, Hb.
Qed.

Lemma sparse_add_comm_assign a b : swf b -> sparse_add O a b = sparse_add_assign O b a.
Proof.
  intros Hb. unfold sparse_add. rewrite insert_all; [reflexivity|apply Hb|constructor|]. intros ? ? [].
Qed.

Lemma sparse_add_spec a b r : swf a -> swf b -> sparse_add O a b = Ok r ->
  swf r /\ peq (sc r) (padd (sc a) (sc b)).
Proof.
  intros Ha Hb H. rewrite sparse_add_comm_assign in H by exact Hb.
  destruct (sparse_add_assign_spec b a r Hb Ha H) as [W C]. split; [exact W|].
  intros d. rewrite C. unfold padd. ring.
Qed.

Lemma sparse_add_returns fits (F : fits_ops O R den fits) a b : swf a -> swf b ->
  (exists r, sparse_add O a b = Ok r) <-> forall d, fits (padd (sc a) (sc b) d).
Proof.
  intros Ha Hb. rewrite sparse_add_comm_assign by exact Hb. rewrite (sparse_add_assign_returns fits F b a Hb Ha).
  unfold padd. split; intros H d; specialize (H d).
  - replace (radd (sc a d) (sc b d)) with (radd (sc b d) (sc a d)) by ring. exact H.
  - replace (radd (sc b d) (sc a d)) with (radd (sc a d) (sc b d)) by ring. exact H.
Qed.

(** ** Differences *)

Lemma sub_entry_ok kv : (fst kv <= USIZE_MAX)%N ->
  entry_ok (fun kv : N * T => Ok (fst kv)) (fun kv => neg O (snd kv)) (fun kv v => sub O v (snd kv)) fst
    (fun kv => ropp (den (snd kv))) kv.
Proof.
  intros H. split; [|split].
  - intros d Hd. inv_ok. auto.
  - intros v Hv. apply (lw_neg _ _ _ L _ _ Hv).
  - intros x v Hv. rewrite (lw_sub _ _ _ L _ _ _ Hv). ring.
Qed.

Lemma sub_addends (b : bmap T) :
  peq (terms_coef (addends fst (fun kv => ropp (den (snd kv))) b)) (popp (sc b)).
Proof.
  unfold scoef. intros d. rewrite <- terms_coef_opp. unfold addends, sentries. rewrite map_map. reflexivity.
Qed.

Lemma sparse_sub_spec a b r : swf a -> swf b -> sparse_sub O a b = Ok r ->
  swf r /\ peq (sc r) (psub (sc a) (sc b)).
Proof.
  intros Ha Hb H. unfold sparse_sub in H.
  destruct (fold_upsert_spec (fun kv => Ok (fst kv)) (fun kv => neg O (snd kv)) (fun kv v => sub O v (snd kv))
     fst (fun kv => ropp (den (snd kv))) b a r Ha) as [W C].
  - eapply Forall_impl; [|apply Hb]. intros kv. apply sub_entry_ok.
  - exact H.
  - split; [exact W|]. intros d. rewrite C. unfold padd. rewrite sub_addends. unfold popp, psub. ring.
Qed.

Lemma sparse_sub_returns fits (F : fits_ops O R den fits) a b : swf a -> swf b ->
  (exists r, sparse_sub O a b = Ok r) <-> forall d, fits (psub (sc a) (sc b) d).
Proof.
  intros Ha Hb. unfold sparse_sub.
  assert (E : (exists r, sparse_sub O a b = Ok r) <->
              forall d, fits (padd (sc a) (terms_coef (addends fst (fun kv => ropp (den (snd kv))) b)) d)).
  { refine (fold_upsert_returns (fun kv => Ok (fst kv)) (fun kv => neg O (snd kv)) (fun kv v => sub O v (snd kv)) fst (fun kv => ropp (den (snd kv))) fits b (fo_den _ _ _ _ F) a Ha _ _).
    - eapply Forall_impl; [|apply Hb]. intros kv Hk. split; [reflexivity|]. split; [exact Hk|]. split; [apply sub_entry_ok, Hk|]. split.
      + apply (fo_neg _ _ _ _ F).
      + intros x. replace (radd (den x) (ropp (den (snd kv)))) with (rsub (den x) (den (snd kv))) by ring.
        apply (fo_sub _ _ _ _ F).
    - apply sorted_nodup, Hb. }
  unfold sparse_sub in E. rewrite E. split; intros H d; specialize (H d); unfold padd, psub in *; rewrite sub_addends in *;
    unfold popp in *.
  - replace (rsub (sc a d) (sc b d)) with (radd (sc a d) (ropp (sc b d))) by ring. exact H.
  - replace (radd (sc a d) (ropp (sc b d))) with (rsub (sc a d) (sc b d)) by ring. exact H.
Qed.

(** ** Maps over the entries *)

Lemma mapM_kv_spec (f : T -> res T) (g : car R -> car R) (m : bmap T) r : g r0 = r0 ->
  (forall x y, f x = Ok y -> den y = g (den x)) -> swf m ->
  mapM (fun kv => v <- f (snd kv) ;; Ok (fst kv, v)) m = Ok r ->
  swf r /\ map fst r = map fst m /\ forall d, sc r d = g (sc m d).
Proof.
  intros G0 Hg Hm H.
  assert (K : map fst r = map fst m /\ forall k, m_get k r = match m_get k m with None => None | Some x => 
              match f x with Ok y => Some y | _ => None end end /\ (forall x, m_get k m = Some x -> exists y, f x = Ok y)).
  { clear Hm. revert r H. induction m as [|[k v] m IH]; intros r H.
    - simpl in H. inv_ok. split; [reflexivity|]. intros k. split; [reflexivity|]. discriminate.
    - cbn [mapM fst snd] in H. destruct (f v) as [y| |] eqn:E; try discriminate. cbn [bind] in H. inv_ok.
      destruct (IH _ E0) as [I1 I2]. split; [simpl; congruence|]. intros k'. simpl.
      destruct (N.eqb k' k); [|apply I2]. rewrite E. split; [reflexivity|]. intros x Hx. injection Hx as <-. eauto. }
  destruct K as [K1 K2].
  assert (W : swf r).
  { clear -K1 Hm. destruct Hm as [H1 H2]. split.
    - revert r K1. induction H1 as [|kv m Hs IH Hf]; intros [|kv' r] K; try discriminate; [constructor|].
      simpl in K. injection K as K1 K2. inversion H2; subst. constructor; [auto|].
      rewrite Forall_forall in *. intros x Hx. assert (Hi : In (fst x) (map fst m)) by (rewrite <- K2; apply in_map, Hx).
      apply in_map_iff in Hi. destruct Hi as (y & Ey & Hy). specialize (Hf _ Hy). unfold key_lt in *. lia.
    - rewrite Forall_forall in *. intros x Hx. assert (Hi : In (fst x) (map fst m)) by (rewrite <- K1; apply in_map, Hx).
      apply in_map_iff in Hi. destruct Hi as (y & Ey & Hy). rewrite <- Ey. auto. }
  split; [exact W|]. split; [exact K1|]. intros d. rewrite !scoef_get by (apply W || apply Hm).
  destruct (K2 (N.of_nat d)) as [E1 E2]. rewrite E1. destruct (m_get (N.of_nat d) m) as [x|]; [|symmetry; exact G0].
  destruct (E2 x eq_refl) as (y & Hy). rewrite Hy. apply Hg, Hy.
Qed.

Lemma map_rebuild_inplace f (m : bmap T) : swf m -> sparse_map_rebuild f m = sparse_map_inplace f m.
Proof.
  intros Hm. unfold sparse_map_rebuild, sparse_map_inplace.
  set (F := fun kv : N * T => v <- f (snd kv) ;; Ok (Some (fst kv, v))).
  rewrite (foldM_ext _ (rebuild_step F)).
  2:{ intros s kv _. unfold rebuild_step, F. destruct (f (snd kv)); reflexivity. }
  rewrite rebuild_spec.
  - assert (E : forall m, (os <- mapM F m ;; Ok ([] ++ somes os)) = mapM (fun kv => v <- f (snd kv) ;; Ok (fst kv, v)) m).
    { clear. induction m as [|kv m IH]; [reflexivity|]. simpl. unfold F at 1. destruct (f (snd kv)); simpl; try reflexivity.
      rewrite <- IH. destruct (mapM F m); reflexivity. }
    apply E.
  - apply Hm.
  - intros a b x y _ _ Hl Ha Hb. unfold F in *. inv_ok. inversion Ha; inversion Hb; subst. exact Hl.
  - constructor.
  - intros ? ? ? [].
Qed.

Lemma map_inplace_returns (f : T -> res T) (P : car R -> Prop) (m : bmap T) : swf m -> P r0 ->
  (forall x, (exists y, f x = Ok y) <-> P (den x)) ->
  (exists r, sparse_map_inplace f m = Ok r) <-> forall d, P (sc m d).
Proof.
  intros Hm P0 Hp. unfold sparse_map_inplace. eapply iff_trans; [apply mapM_ok_iff|]. rewrite Forall_forall. split.
  - intros H d. rewrite scoef_get by apply Hm. destruct (m_get (N.of_nat d) m) as [x|] eqn:E; [|exact P0].
    apply m_get_in in E. destruct (H _ E) as (y & Hy). inv_ok. apply Hp. simpl in *. eauto.
  - intros H [k x] Hi. specialize (H (N.to_nat k)). rewrite scoef_get, N2Nat.id in H by apply Hm.
    rewrite (sorted_in_get m k x (proj1 Hm) Hi) in H. apply Hp in H. destruct H as (y & Hy). simpl. rewrite Hy. simpl. eauto.
Qed.

Lemma sparse_neg_inplace m : swf m -> sparse_neg O m = sparse_map_inplace (neg O) m.
Proof. intros Hm. rewrite <- map_rebuild_inplace by exact Hm. reflexivity. Qed.

Lemma sparse_neg_spec m r : swf m -> sparse_neg O m = Ok r -> swf r /\ peq (sc r) (popp (sc m)).
Proof.
  intros Hm H. rewrite sparse_neg_inplace in H by exact Hm.
  destruct (mapM_kv_spec (neg O) ropp m r) as (W & _ & C); auto; [ring|].
  intros x y Hx. apply (lw_neg _ _ _ L _ _ Hx).
Qed.

Lemma sparse_neg_returns fits (F : fits_ops O R den fits) m : swf m ->
  (exists r, sparse_neg O m = Ok r) <-> forall d, fits (popp (sc m) d).
Proof.
  intros Hm. rewrite sparse_neg_inplace by exact Hm. unfold popp.
  apply (map_inplace_returns (neg O) (fun c => fits (ropp c)) m Hm).
  - replace (ropp r0) with (@r0 R) by ring. apply fits_zero, F.
  - apply (fo_neg _ _ _ _ F).
Qed.

Lemma sparse_scale_spec m c r : swf m -> sparse_scale O m c = Ok r \/ sparse_scale_assign O m c = Ok r ->
  swf r /\ peq (sc r) (pscale (sc m) (den c)).
Proof.
  intros Hm H. unfold sparse_scale in H. rewrite map_rebuild_inplace in H by exact Hm.
  assert (H' : sparse_map_inplace (fun x => mul O x c) m = Ok r) by (destruct H; assumption).
  destruct (mapM_kv_spec (fun x => mul O x c) (fun x => rmul x (den c)) m r) as (W & _ & C); auto; [ring|].
  intros x y Hx. apply (lw_mul _ _ _ L _ _ _ Hx).
Qed.

Lemma sparse_scale_returns fits (F : fits_ops O R den fits) m c : swf m ->
  ((exists r, sparse_scale O m c = Ok r) <-> forall d, fits (pscale (sc m) (den c) d)) /\
  ((exists r, sparse_scale_assign O m c = Ok r) <-> forall d, fits (pscale (sc m) (den c) d)).
Proof.
  intros Hm. unfold sparse_scale. rewrite map_rebuild_inplace by exact Hm. unfold pscale.
  assert (E : (exists r, sparse_map_inplace (fun x => mul O x c) m = Ok r) <-> forall d, fits (rmul (sc m d) (den c))).
  { apply (map_inplace_returns (fun x => mul O x c) (fun x => fits (rmul x (den c))) m Hm).
    - replace (rmul r0 (den c)) with (@r0 R) by ring. apply fits_zero, F.
    - intros x. apply (fo_mul _ _ _ _ F). }
  split; exact E.
Qed.

(** Division by a scalar: every stored coefficient divided. *)
Lemma sparse_div_scalar_same m c : swf m -> sparse_div_scalar O m c = sparse_div_scalar_assign O m c.
Proof. intros Hm. apply map_rebuild_inplace, Hm. Qed.

Lemma sparse_div_scalar_spec m c r : swf m -> sparse_div_scalar_assign O m c = Ok r ->
  swf r /\ Forall2 (fun a b => fst a = fst b /\ div O (snd a) c = Ok (snd b)) m r.
Proof.
  intros Hm H. unfold sparse_div_scalar_assign, sparse_map_inplace in H.
  assert (F : Forall2 (fun a b => fst a = fst b /\ div O (snd a) c = Ok (snd b)) m r).
  { clear Hm. revert r H. induction m as [|[k v] m IH]; intros r H; [simpl in H; inv_ok; constructor|].
    cbn [mapM fst snd] in H. destruct (div O v c) as [y| |] eqn:E; try discriminate. cbn [bind] in H. inv_ok.
    constructor; [|auto]. simpl. auto. }
  split; [|exact F]. destruct Hm as [H1 H2]. split.
  - clear H. induction F as [|a b m r [E1 _] F IH]; [constructor|]. inversion H1; inversion H2; subst. constructor; auto.
    rewrite Forall_forall in *. intros y Hy.
    assert (Hx : exists x, In x m /\ fst x = fst y).
    { clear -F Hy. induction F as [|x z m r [E _] F IH]; [destruct Hy|]. destruct Hy as [->|Hy].
      - exists x. simpl. auto.
      - destruct (IH Hy) as (w & A & B). exists w. simpl. auto. }
    destruct Hx as (x & Hx & Ex). specialize (H4 _ Hx). unfold key_lt in *. lia.
  - clear H H1. induction F as [|a b m r [E1 _] F IH]; constructor; inversion H2; subst; auto. congruence.
Qed.

Lemma sparse_div_scalar_exact (X : exact_div O R den) m c r : swf m -> is_zero O c = false ->
  sparse_div_scalar_assign O m c = Ok r -> peq (pscale (sc r) (den c)) (sc m).
Proof.
  intros Hm Hz H. destruct (sparse_div_scalar_spec m c r Hm H) as [_ F]. clear H Hm.
  induction F as [|[k a] [k' b] m r [E1 E2] F IH]; intros d.
  - unfold pscale. simpl. rewrite !scoef_nil. ring.
  - simpl in E1, E2. subst k'. unfold pscale in *. rewrite !scoef_cons. unfold padd, pmono.
    destruct (X a c Hz) as (q & Hq & He). assert (q = b) by congruence. subst q.
    rewrite <- IH, <- He. destruct (Nat.eqb d (N.to_nat k)); ring.
Qed.

(** ** Products *)

(** All coefficients above [n] vanish. *)
Definition pbound {R : comring} (p : poly R) (n : N) : Prop := forall i, (n < N.of_nat i)%N -> p i = r0.

Lemma pbound_get m n k v : swf m -> pbound (sc m) n -> In (k, v) m -> (k <= n)%N \/ den v = r0.
Proof.
  intros Hm Hb Hi. destruct (N.leb_spec k n); [auto|]. right. specialize (Hb (N.to_nat k)).
  rewrite scoef_get, N2Nat.id, (sorted_in_get m k v (proj1 Hm) Hi) in Hb by apply Hm. apply Hb. lia.
Qed.

Definition mul_kf (rdeg : N) (kv : N * T) : res N := uadd (n_chk O) rdeg (fst kv).
Definition mul_none (rterm : T) (kv : N * T) : res T := mul O rterm (snd kv).
Definition mul_some (rterm : T) (kv : N * T) (v : T) : res T := p <- mul O rterm (snd kv) ;; add O v p.

Lemma mul_entry_ok rdeg rterm kv :
  (n_chk O = true \/ (rdeg + fst kv <= USIZE_MAX)%N \/ den (snd kv) = r0) ->
  entry_ok (mul_kf rdeg) (mul_none rterm) (mul_some rterm) (fun kv => (rdeg + fst kv)%N)
    (fun kv => rmul (den rterm) (den (snd kv))) kv.
Proof.
  intros H. unfold mul_kf, mul_none, mul_some. split; [|split].
  - intros d Hd. split; [eapply uadd_le_max; exact Hd|]. destruct H as [H|[H|H]].
    + rewrite H in Hd. apply uadd_checked_ok in Hd. tauto.
    + rewrite uadd_small in Hd by exact H. inv_ok. auto.
    + right. rewrite H. ring.
  - intros v Hv. apply (lw_mul _ _ _ L _ _ _ Hv).
  - intros x v Hv. inv_ok. rewrite (lw_add _ _ _ L _ _ _ Hv), (lw_mul _ _ _ L _ _ _ E). ring.
Qed.

Lemma mul_row_addends rdeg c (lhs : bmap T) :
  peq (terms_coef (addends (fun kv => (rdeg + fst kv)%N) (fun kv => rmul c (den (snd kv))) lhs))
      (pmul (pmono c (N.to_nat rdeg)) (sc lhs)).
Proof.
  induction lhs as [|[k v] lhs IH]; intros d.
  - simpl. symmetry. apply pmul_zero_r. intros i. apply scoef_nil.
  - cbn [addends map terms_coef fst snd]. unfold padd at 1. fold (addends (fun kv => (rdeg + fst kv)%N) (fun kv : N * T => rmul c (den (snd kv))) lhs).
    rewrite IH. rewrite (pmul_ext _ _ _ _ (peq_refl _) (scoef_cons R den k v lhs) d).
    rewrite pmul_padd_r. unfold padd. f_equal. rewrite pmul_pmono_pmono.
    rewrite N2Nat.inj_add. reflexivity.
Qed.

(** In the unchecked profile the sum of the degrees has to be a [usize]. *)
Definition degsum_ok (a b : poly R) : Prop :=
  n_chk O = true \/ exists na nb, pbound a na /\ pbound b nb /\ (na + nb <= USIZE_MAX)%N.

Lemma sparse_mul_gen lhs rhs : swf lhs -> (forall k v, In (k, v) rhs -> is_zero O v = false ->
      forall kv, In kv lhs -> n_chk O = true \/ (k + fst kv <= USIZE_MAX)%N \/ den (snd kv) = r0) ->
  forall acc r, swf acc ->
  foldM (fun terms kv => if is_zero O (snd kv) then Ok terms else map_mul_row O (fst kv) (snd kv) terms lhs) acc rhs = Ok r ->
  swf r /\ peq (sc r) (padd (sc acc) (pmul (sc rhs) (sc lhs))).
Proof.
  intros Hl. induction rhs as [|[k v] rhs IH]; intros Hr acc r Ha H; simpl in H; inv_ok.
  - split; [exact Ha|]. intros d. unfold padd. rewrite pmul_zero_l; [unfold pzero; ring|]. intros i. apply scoef_nil.
  - assert (Hr' : forall k0 v0, In (k0, v0) rhs -> is_zero O v0 = false -> forall kv, In kv lhs ->
        n_chk O = true \/ (k0 + fst kv <= USIZE_MAX)%N \/ den (snd kv) = r0) by (intros; eapply Hr; simpl; eauto).
    assert (E1 : peq (pmul (sc ((k, v) :: rhs)) (sc lhs))
                  (padd (pmul (pmono (den v) (N.to_nat k)) (sc lhs)) (pmul (sc rhs) (sc lhs)))).
    { eapply peq_trans; [apply pmul_ext; [apply scoef_cons|apply peq_refl]|]. apply pmul_padd_l. }
    destruct (is_zero O v) eqn:Ez.
    + inv_ok. destruct (IH Hr' v0 r Ha H) as [W C]. split; [exact W|]. intros d. rewrite C.
      unfold padd at 1 2. rewrite E1. unfold padd. rewrite (pmul_zero_l (pmono (den v) (N.to_nat k))).
      * unfold pzero. ring.
      * intros i. unfold pmono. rewrite (is_zero_den O R den L v Ez). destruct (Nat.eqb i (N.to_nat k)); reflexivity.
    + unfold map_mul_row in E.
      destruct (fold_upsert_spec (mul_kf k) (mul_none v) (mul_some v) (fun kv => (k + fst kv)%N)
        (fun kv => rmul (den v) (den (snd kv))) lhs acc v0 Ha) as [W1 C1].
      * rewrite Forall_forall. intros kv Hkv. apply mul_entry_ok. apply (Hr k v); simpl; auto.
      * exact E.
      * destruct (IH Hr' v0 r W1 H) as [W C]. split; [exact W|]. intros d. rewrite C.
        unfold padd at 1 2. rewrite E1, C1. unfold padd. rewrite mul_row_addends. ring.
Qed.

Lemma degsum_entries lhs rhs : swf lhs -> swf rhs -> degsum_ok (sc lhs) (sc rhs) ->
  forall k v, In (k, v) rhs -> is_zero O v = false ->
  forall kv, In kv lhs -> n_chk O = true \/ (k + fst kv <= USIZE_MAX)%N \/ den (snd kv) = r0.
Proof.
  intros Hl Hr [H|(na & nb & Ba & Bb & Hs)] k v Hi Hz [k' v'] Hi'; [auto|]. simpl.
  destruct (pbound_get rhs nb k v Hr Bb Hi) as [H|H].
  - destruct (pbound_get lhs na k' v' Hl Ba Hi') as [H'|H']; [|auto]. right. left. lia.
  - exfalso. apply (is_zero_false_den O R den L v Hz H).
Qed.

Lemma sparse_mul_spec lhs rhs r : swf lhs -> swf rhs -> degsum_ok (sc lhs) (sc rhs) ->
  sparse_mul O lhs rhs = Ok r -> swf r /\ peq (sc r) (pmul (sc lhs) (sc rhs)).
Proof.
  intros Hl Hr Hd H. unfold sparse_mul in H.
  assert (H0 : swf (@nil (N * T))) by (split; constructor).
  destruct (sparse_mul_gen lhs rhs Hl (degsum_entries lhs rhs Hl Hr Hd) [] r H0 H) as [W C].
  split; [exact W|]. intros d. rewrite C. unfold padd. rewrite scoef_nil, pmul_comm. ring.
Qed.

(** Multiplication always keeps the map well formed, whatever the degrees. *)
Lemma upsert_wf m k none some m' : swf m -> (k <= USIZE_MAX)%N -> @m_upsert T m k none some = Ok m' -> swf m'.
Proof.
  intros Hw Hk H. unfold m_upsert in H. destruct (m_get k m) as [x|]; inv_ok; apply m_insert_wf; assumption.
Qed.

Lemma foldM_inv {A S} (P : S -> Prop) (f : S -> A -> res S) l : (forall s x s', In x l -> P s -> f s x = Ok s' -> P s') ->
  forall s s', P s -> foldM f s l = Ok s' -> P s'.
Proof.
  induction l as [|x l IH]; intros Hf s s' Hs H; simpl in H; inv_ok; [exact Hs|].
  eapply IH; [|eapply Hf; [left; reflexivity|exact Hs|exact E]|exact H]. intros. eapply Hf; [right; eassumption| |]; eassumption.
Qed.

Lemma sparse_mul_wf lhs rhs r : sparse_mul O lhs rhs = Ok r -> swf r.
Proof.
  intros H. unfold sparse_mul in H. revert H. apply foldM_inv; [|split; constructor].
  intros s kv s' _ Hs Hf. destruct (is_zero O (snd kv)); [inv_ok; exact Hs|]. unfold map_mul_row in Hf. revert Hf.
  apply foldM_inv; [|exact Hs]. clear s Hs s'. intros s x s' _ Hs Hf. inv_ok. eapply upsert_wf; [exact Hs|eapply uadd_le_max; eassumption|exact Hf].
Qed.

(** With total arithmetic it returns unless a stored degree sum overflows with checks on. *)
Lemma sparse_mul_total (HT : total_ops O) lhs rhs :
  (n_chk O = true -> forall k v kv, In (k, v) rhs -> In kv lhs -> (k + fst kv <= USIZE_MAX)%N) ->
  exists r, sparse_mul O lhs rhs = Ok r.
Proof.
  intros Hc. unfold sparse_mul. generalize (@nil (N * T)) as acc. induction rhs as [|[k v] rhs IH]; intros acc; simpl; [eauto|].
  assert (IH' : forall acc, exists r, foldM (fun terms kv => if is_zero O (snd kv) then Ok terms
      else map_mul_row O (fst kv) (snd kv) terms lhs) acc rhs = Ok r).
  { apply IH. intros H k0 v0 kv Hi Hj. eapply (Hc H); [right; exact Hi|exact Hj]. }
  destruct (is_zero O v); cbn [bind]; [apply IH'|].
  assert (E : exists r, map_mul_row O k v acc lhs = Ok r).
  { unfold map_mul_row. apply (fold_upsert_total (mul_kf k) (mul_none v) (mul_some v)).
    rewrite Forall_forall. intros kv Hkv. unfold mul_kf, mul_none, mul_some. split; [|split].
    - destruct (n_chk O) eqn:Ec.
      + rewrite uadd_small; [eauto|]. eapply (Hc eq_refl); [left; reflexivity|exact Hkv].
      + unfold uadd. destruct (_ <=? _)%N; eauto.
    - apply (to_mul _ HT).
    - intros x. destruct (to_mul _ HT v (snd kv)) as (p & Hp). rewrite Hp. cbn [bind]. apply (to_add _ HT). }
  destruct E as (r & ->). cbn [bind]. apply IH'.
Qed.

(** ** Powers *)

Lemma pbound_mono (p : poly R) n m : (n <= m)%N -> pbound p n -> pbound p m.
Proof. intros H Hb i Hi. apply Hb. lia. Qed.

Lemma pbound_ext (p q : poly R) n : peq p q -> pbound p n -> pbound q n.
Proof. intros H Hb i Hi. rewrite <- H. apply Hb, Hi. Qed.

Lemma pbound_pmul (p q : poly R) n m : pbound p n -> pbound q m -> pbound (pmul p q) (n + m).
Proof.
  intros Hp Hq i Hi. unfold pmul. apply sumn_0. intros j Hj. destruct (N.leb_spec (N.of_nat j) n).
  - rewrite (Hq (i - j)%nat) by lia. ring.
  - rewrite (Hp j) by lia. ring.
Qed.

Lemma pbound_ppow (p : poly R) n e : pbound p n -> pbound (ppow p e) (n * N.of_nat e).
Proof.
  intros Hp. induction e as [|e IH]; simpl ppow.
  - intros i Hi. destruct i; [lia|reflexivity].
  - replace (n * N.of_nat (S e))%N with (n + n * N.of_nat e)%N by lia. apply pbound_pmul; assumption.
Qed.

Definition degpow_ok (p : poly R) (e : N) : Prop :=
  n_chk O = true \/ exists n, pbound p n /\ (n * e <= USIZE_MAX)%N.

Lemma pbound_mul_max (p : poly R) n e f : pbound p n -> (n * e <= USIZE_MAX)%N -> (f <= e)%N -> degpow_ok p f.
Proof. intros. right. exists n. split; [assumption|]. nia. Qed.

Lemma sparse_pow_spec fuel : forall p e r, swf p -> degpow_ok (sc p) e -> sparse_pow O fuel p e = Ok r ->
  swf r /\ peq (sc r) (ppow (sc p) (N.to_nat e)).
Proof.
  induction fuel as [|fuel IH]; intros p e r Hp Hd H; [discriminate|]. cbn [sparse_pow] in H.
  destruct (N.eqb_spec e 0) as [->|H0].
  { inv_ok. split; [split; [constructor; constructor|constructor; [apply N.le_0_l|constructor]]|].
    intros d. rewrite scoef_cons. unfold padd, pmono. rewrite scoef_nil, (lw_one _ _ _ L).
    change (N.to_nat 0) with 0%nat. simpl ppow. destruct d; simpl; ring. }
  destruct (N.eqb_spec e 1) as [->|H1]; [inv_ok; split; [exact Hp|]; apply peq_sym, ppow_1|].
  assert (Hsq : forall q r, swf q -> degpow_ok (sc q) 2 -> sparse_mul O q q = Ok r ->
            swf r /\ peq (sc r) (ppow (sc q) 2)).
  { intros q r' Hq Hd2 Hm. destruct (sparse_mul_spec q q r' Hq Hq) as [W C]; auto.
    - destruct Hd2 as [Hc|(n & Hb & Hn)]; [left; exact Hc|right; exists n, n]. repeat split; auto. lia.
    - split; [exact W|]. eapply peq_trans; [exact C|]. change 2%nat with (1 + 1)%nat. apply peq_sym.
      eapply peq_trans; [apply ppow_add|]. apply pmul_ext; apply ppow_1. }
  destruct (N.eqb_spec e 2) as [->|H2]; [apply Hsq; assumption|].
  destruct (N.eqb_spec (e mod 2) 0) as [Hev|Hod].
  - inv_ok. assert (Hhalf : (2 * (e / 2) = e)%N) by (pose proof (N.div_mod' e 2); lia).
    destruct (IH p (e / 2)%N v Hp) as [W1 C1]; auto.
    { destruct Hd as [Hc|(n & Hb & Hn)]; [left; exact Hc|]. right. exists n. split; [exact Hb|]. nia. }
    destruct (IH v 2%N r W1) as [W C]; auto.
    { destruct Hd as [Hc|(n & Hb & Hn)]; [left; exact Hc|]. right. exists (n * (e / 2))%N. split; [|nia].
      eapply pbound_ext; [apply peq_sym, C1|]. replace (n * (e / 2))%N with (n * N.of_nat (N.to_nat (e / 2)))%N by lia.
      apply pbound_ppow, Hb. }
    split; [exact W|]. eapply peq_trans; [exact C|]. eapply peq_trans; [apply ppow_ext, C1|].
    replace (N.to_nat e) with (N.to_nat (e / 2) + N.to_nat (e / 2))%nat by lia.
    apply peq_sym. eapply peq_trans; [apply ppow_add|]. change (N.to_nat 2) with (1 + 1)%nat.
    apply peq_sym. eapply peq_trans; [apply ppow_add|]. apply pmul_ext; apply ppow_1.
  - inv_ok. destruct (IH p (e - 1)%N v Hp) as [W1 C1]; auto.
    { destruct Hd as [Hc|(n & Hb & Hn)]; [left; exact Hc|]. right. exists n. split; [exact Hb|]. nia. }
    destruct (sparse_mul_spec p v r Hp W1) as [W C]; auto.
    { destruct Hd as [Hc|(n & Hb & Hn)]; [left; exact Hc|]. right. exists n, (n * (e - 1))%N. split; [exact Hb|]. split; [|nia].
      eapply pbound_ext; [apply peq_sym, C1|]. replace (n * (e - 1))%N with (n * N.of_nat (N.to_nat (e - 1)))%N by lia.
      apply pbound_ppow, Hb. }
    split; [exact W|]. eapply peq_trans; [exact C|]. replace (N.to_nat e) with (S (N.to_nat (e - 1))) by lia.
    simpl. apply pmul_ext; [apply peq_refl|exact C1].
Qed.

Lemma foldM_prompt {A S} (f : S -> A -> res S) l : (forall s x, f s x <> Fuel) -> forall s, foldM f s l <> Fuel.
Proof.
  intros Hf. induction l as [|x l IH]; intros s; simpl; [discriminate|]. specialize (Hf s x).
  destruct (f s x); simpl; [apply IH|discriminate|congruence].
Qed.

Lemma uadd_prompt chk a b : uadd chk a b <> Fuel.
Proof. unfold uadd. destruct (_ <=? _)%N; [discriminate|]. destruct chk; discriminate. Qed.

Lemma usub_prompt chk a b : usub chk a b <> Fuel.
Proof. unfold usub. destruct (_ <=? _)%N; [discriminate|]. destruct chk; discriminate. Qed.

Lemma sparse_mul_prompt (HP : prompt O) a b : sparse_mul O a b <> Fuel.
Proof.
  apply foldM_prompt. intros s x. destruct (is_zero O (snd x)); [discriminate|]. apply foldM_prompt. intros s' y.
  apply bind_prompt; [apply uadd_prompt|]. intros d _. unfold m_upsert. destruct (m_get d s').
  - apply bind_prompt; [|discriminate]. apply bind_prompt; [apply (pr_mul _ HP)|]. intros. apply (pr_add _ HP).
  - apply bind_prompt; [apply (pr_mul _ HP)|discriminate].
Qed.

Lemma sparse_pow_prompt (HP : prompt O) : forall fuel p e, (pow_fuel e <= fuel)%nat -> sparse_pow O fuel p e <> Fuel.
Proof.
  induction fuel as [fuel IH] using lt_wf_ind. intros p e Hf. destruct fuel as [|fuel]; [unfold pow_fuel in Hf; lia|].
  cbn [sparse_pow].
  destruct (N.eqb_spec e 0); [discriminate|]. destruct (N.eqb_spec e 1); [discriminate|].
  destruct (N.eqb_spec e 2); [apply sparse_mul_prompt, HP|].
  assert (Hsz : (2 <= e)%N) by lia. pose proof (size_div2 e Hsz) as Hs.
  assert (Hs2 : (1 <= N.size (e / 2))%N).
  { destruct (e / 2)%N eqn:E; [|simpl; lia]. apply N.div_small_iff in E; lia. }
  destruct (N.eqb_spec (e mod 2) 0) as [Hev|Hod].
  - apply bind_prompt.
    + apply IH; [lia|]. unfold pow_fuel in *. lia.
    + intros h _. destruct fuel as [|fuel]; [unfold pow_fuel in Hf; lia|]. cbn [sparse_pow]. apply sparse_mul_prompt, HP.
  - assert (Hm : (e mod 2 = 1)%N) by (pose proof (N.mod_lt e 2); lia).
    apply bind_prompt; [|intros; apply sparse_mul_prompt, HP].
    destruct fuel as [|fuel]; [unfold pow_fuel in Hf; lia|]. cbn [sparse_pow].
    destruct (N.eqb_spec (e - 1) 0); [discriminate|]. destruct (N.eqb_spec (e - 1) 1); [discriminate|].
    destruct (N.eqb_spec (e - 1) 2); [apply sparse_mul_prompt, HP|].
    assert (Hd : ((e - 1) / 2 = e / 2)%N).
    { pose proof (N.div_mod' e 2). symmetry. apply (N.div_unique (e - 1) 2 (e / 2) 0); lia. }
    assert (He : ((e - 1) mod 2 = 0)%N).
    { symmetry. apply (N.mod_unique (e - 1) 2 (e / 2) 0); [lia|]. pose proof (N.div_mod' e 2). lia. }
    rewrite He. cbn [N.eqb]. rewrite Hd. apply bind_prompt.
    + apply IH; [lia|]. unfold pow_fuel in *. lia.
    + intros h _. destruct fuel as [|fuel]; [unfold pow_fuel in Hf; lia|]. cbn [sparse_pow]. apply sparse_mul_prompt, HP.
Qed.

(** Unchecked profile with total arithmetic: it always returns. *)
Lemma sparse_pow_total (HT : total_ops O) (HC : n_chk O = false) : forall fuel p e, sparse_pow O fuel p e <> Fuel ->
  exists r, sparse_pow O fuel p e = Ok r.
Proof.
  assert (HM : forall a b, exists r, sparse_mul O a b = Ok r).
  { intros. apply (sparse_mul_total HT). rewrite HC. discriminate. }
  induction fuel as [|fuel IH]; intros p e H; [exfalso; apply H; reflexivity|]. cbn [sparse_pow] in *.
  destruct (N.eqb e 0); [eauto|]. destruct (N.eqb e 1); [eauto|]. destruct (N.eqb e 2); [auto|].
  destruct (N.eqb (e mod 2) 0).
  - destruct (IH p (e / 2)%N) as (h & Hh).
    + intros E. rewrite E in H. auto.
    + rewrite Hh in *. cbn [bind] in *. apply IH, H.
  - destruct (IH p (e - 1)%N) as (h & Hh).
    + intros E. rewrite E in H. auto.
    + rewrite Hh in *. cbn [bind] in *. auto.
Qed.

End SparseArith.
