(** Sparse polynomials: reading, map facts, degree, listing, equality. *)

From Coq Require Import List NArith ZArith Lia Bool Ring Arith Sorted.
From Coq Require Import ZifyBool ZifyNat ZifyN.
From Verif Require Import Base Num Spec SpecFacts Laws Terms Dense DenseFacts Sparse.
Import ListNotations.

(** Keys strictly increasing, each a [usize]: what a [BTreeMap<usize, _>] can hold. *)
Definition key_lt {T} (a b : N * T) : Prop := (fst a < fst b)%N.
Definition swf {T} (m : bmap T) : Prop :=
  StronglySorted key_lt m /\ Forall (fun kv => (fst kv <= USIZE_MAX)%N) m.

(** ** Map facts *)
Section Map.
Context {T : Type}.
Implicit Types (m : bmap T) (k : N) (v : T).

Lemma m_get_insert m k v k' : m_get k' (m_insert k v m) = if (k' =? k)%N then Some v else m_get k' m.
Proof.
  induction m as [|[k1 v1] m IH]; simpl.
  - destruct (N.eqb_spec k' k); reflexivity.
  - destruct (N.compare_spec k k1); simpl.
    + subst. destruct (N.eqb_spec k' k1); reflexivity.
    + reflexivity.
    + rewrite IH. destruct (N.eqb_spec k' k1), (N.eqb_spec k' k); subst; auto; lia.
Qed.

Lemma m_get_in m k v : m_get k m = Some v -> In (k, v) m.
Proof.
  induction m as [|[k1 v1] m IH]; simpl; [discriminate|].
  destruct (N.eqb_spec k k1); intros H; [left; congruence|right; auto].
Qed.

Lemma m_get_notin m k : m_get k m = None <-> ~ In k (map fst m).
Proof.
  induction m as [|[k1 v1] m IH]; simpl; [tauto|].
  destruct (N.eqb_spec k k1) as [->|Hn]; [split; [discriminate|tauto]|].
  rewrite IH. split; intros H; [intros [E|E]; [congruence|tauto]|tauto].
Qed.

Lemma sorted_in_get m k v : StronglySorted key_lt m -> In (k, v) m -> m_get k m = Some v.
Proof.
  induction m as [|[k1 v1] m IH]; intros Hs Hi; [destruct Hi|]. inversion Hs as [|? ? Hs' Hf]; subst.
  simpl. destruct Hi as [E|Hi].
  - injection E as -> ->. rewrite N.eqb_refl. reflexivity.
  - rewrite Forall_forall in Hf. specialize (Hf _ Hi). unfold key_lt in Hf. simpl in Hf.
    destruct (N.eqb_spec k k1); [lia|]. auto.
Qed.

Lemma m_insert_in m k v kv : In kv (m_insert k v m) -> kv = (k, v) \/ In kv m.
Proof.
  induction m as [|[k1 v1] m IH]; simpl.
  - intros [<-|[]]. auto.
  - destruct (N.compare_spec k k1); simpl; intros [H0|H0]; subst; auto. destruct (IH H0); auto.
Qed.

Lemma m_insert_sorted m k v : StronglySorted key_lt m -> StronglySorted key_lt (m_insert k v m).
Proof.
  induction m as [|[k1 v1] m IH]; simpl; intros Hs.
  - constructor; constructor.
  - inversion Hs as [|? ? Hs' Hf]; subst. destruct (N.compare_spec k k1); subst.
    + constructor; auto.
    + constructor; [constructor; auto|]. constructor; [exact H|].
      eapply Forall_impl; [|exact Hf]. unfold key_lt. simpl. intros; lia.
    + constructor; [auto|]. rewrite Forall_forall in *. intros kv Hi.
      apply m_insert_in in Hi. destruct Hi as [->|Hi]; [exact H|auto].
Qed.

Lemma m_insert_wf m k v : swf m -> (k <= USIZE_MAX)%N -> swf (m_insert k v m).
Proof.
  intros [H1 H2] Hk. split; [apply m_insert_sorted, H1|]. rewrite Forall_forall in *. intros kv Hi.
  apply m_insert_in in Hi. destruct Hi as [->|Hi]; [exact Hk|auto].
Qed.

Lemma m_insert_last m k v : Forall (fun kv => (fst kv < k)%N) m -> m_insert k v m = m ++ [(k, v)].
Proof.
  induction m as [|[k1 v1] m IH]; simpl; intros H; [reflexivity|]. inversion H; subst. simpl in *.
  destruct (N.compare_spec k k1); try lia. rewrite IH; auto.
Qed.

Lemma sorted_app_lt m1 m2 : StronglySorted key_lt m1 -> StronglySorted key_lt m2 ->
  (forall a b, In a m1 -> In b m2 -> key_lt a b) -> StronglySorted key_lt (m1 ++ m2).
Proof.
  intros H1 H2 H. induction H1 as [|a m1 H1 IH Hf]; simpl; [exact H2|]. constructor.
  - apply IH. intros; apply H; simpl; auto.
  - apply Forall_app. split; [exact Hf|]. rewrite Forall_forall. intros; apply H; simpl; auto.
Qed.

Lemma sorted_app_inv m1 m2 : StronglySorted key_lt (m1 ++ m2) ->
  StronglySorted key_lt m1 /\ StronglySorted key_lt m2 /\ (forall a b, In a m1 -> In b m2 -> key_lt a b).
Proof.
  induction m1 as [|x m1 IH]; simpl; intros H.
  - repeat split; auto. constructor. intros ? ? [].
  - inversion H as [|? ? Hs Hf]; subst. destruct (IH Hs) as (A & B & C). apply Forall_app in Hf. destruct Hf as [F1 F2].
    repeat split; auto; [constructor; auto|]. intros a b [->|Ha] Hb; [|auto].
    rewrite Forall_forall in F2. auto.
Qed.

(** Inserting the entries of a sorted map one by one, in order, rebuilds it. *)
Lemma insert_all m : StronglySorted key_lt m -> forall acc,
  StronglySorted key_lt acc -> (forall a b, In a acc -> In b m -> key_lt a b) ->
  fold_left (fun m kv => m_insert (fst kv) (snd kv) m) m acc = acc ++ m.
Proof.
  induction 1 as [|[k v] m Hs IH Hf]; intros acc Ha Hlt; simpl; [rewrite app_nil_r; reflexivity|].
  rewrite m_insert_last.
  2:{ rewrite Forall_forall. intros a Hi. apply (Hlt a (k, v)); simpl; auto. }
  rewrite IH.
  - rewrite <- app_assoc. reflexivity.
  - apply sorted_app_lt; [exact Ha|repeat constructor|]. intros a b Hi [<-|[]]. apply Hlt; simpl; auto.
  - intros a b Hi Hb. apply in_app_iff in Hi. destruct Hi as [Hi|[<-|[]]].
    + apply Hlt; simpl; auto.
    + rewrite Forall_forall in Hf. auto.
Qed.

End Map.

(** ** Folds that rebuild a map with increasing keys *)
Section Rebuild.
Context {T U : Type}.

Fixpoint somes {A} (l : list (option A)) : list A :=
  match l with [] => [] | Some a :: l' => a :: somes l' | None :: l' => somes l' end.

Variable f : N * T -> res (option (N * U)).

Definition rebuild_step (acc : bmap U) (kv : N * T) : res (bmap U) :=
  o <- f kv ;; Ok (match o with None => acc | Some (k, v) => m_insert k v acc end).

Lemma rebuild_spec m : StronglySorted key_lt m ->
  (forall a b x y, In a m -> In b m -> key_lt a b -> f a = Ok (Some x) -> f b = Ok (Some y) -> key_lt x y) ->
  forall acc, StronglySorted key_lt acc ->
  (forall a b y, In a acc -> In b m -> f b = Ok (Some y) -> key_lt a y) ->
  foldM rebuild_step acc m = (os <- mapM f m ;; Ok (acc ++ somes os)).
Proof.
  induction 1 as [|kv m Hs IH Hf]; intros Hmono acc Ha Hlt; cbn [foldM mapM bind].
  - simpl. rewrite app_nil_r. reflexivity.
  - unfold rebuild_step at 1. destruct (f kv) as [o| |] eqn:E; cbn [bind]; try reflexivity.
    assert (Hmono' : forall a b x y, In a m -> In b m -> key_lt a b -> f a = Ok (Some x) -> f b = Ok (Some y) -> key_lt x y)
      by (intros a b x y Hia Hib; apply Hmono; simpl; auto).
    destruct o as [[k v]|]; cbn [bind].
    + rewrite m_insert_last.
      2:{ rewrite Forall_forall. intros a Hi. apply (Hlt a kv (k, v)); simpl; auto. }
      rewrite (IH Hmono').
      * destruct (mapM f m); cbn [bind]; try reflexivity. rewrite <- app_assoc. reflexivity.
      * apply sorted_app_lt; [exact Ha|repeat constructor|]. intros a b Hi [<-|[]]. apply (Hlt a kv); simpl; auto.
      * intros a b y Hi Hb Hy. apply in_app_iff in Hi. destruct Hi as [Hi|[<-|[]]].
        -- apply (Hlt a b y); simpl; auto.
        -- rewrite Forall_forall in Hf. apply (Hmono kv b (k, v) y); simpl; auto.
    + rewrite (IH Hmono' acc Ha).
      * destruct (mapM f m); reflexivity.
      * intros a b y Hi Hb. apply Hlt; simpl; auto.
Qed.

Lemma somes_mapM_in m os x : mapM f m = Ok os -> In x (somes os) -> exists kv, In kv m /\ f kv = Ok (Some x).
Proof.
  revert os. induction m as [|kv m IH]; simpl; intros os H Hi; inv_ok; [destruct Hi|].
  destruct v as [y|]; simpl in Hi.
  - destruct Hi as [->|Hi]; [eauto|]. destruct (IH _ E0 Hi) as (kv' & A & B). eauto.
  - destruct (IH _ E0 Hi) as (kv' & A & B). eauto.
Qed.

Lemma rebuild_sorted m os : StronglySorted key_lt m ->
  (forall a b x y, In a m -> In b m -> key_lt a b -> f a = Ok (Some x) -> f b = Ok (Some y) -> key_lt x y) ->
  mapM f m = Ok os -> StronglySorted key_lt (somes os).
Proof.
  intros Hs. revert os. induction Hs as [|kv m Hs IH Hf]; intros os Hmono H; simpl in H; inv_ok; [constructor|].
  assert (IH' : StronglySorted key_lt (somes v0)).
  { apply IH; [|exact E0]. intros a b x y Hia Hib; apply Hmono; simpl; auto. }
  destruct v as [x|]; simpl; [|exact IH']. constructor; [exact IH'|].
  rewrite Forall_forall. intros y Hy. destruct (somes_mapM_in _ _ _ E0 Hy) as (b & Hb & Hfb).
  rewrite Forall_forall in Hf. apply (Hmono kv b x y); simpl; auto.
Qed.

End Rebuild.

Lemma foldM_ext {A S} (f g : S -> A -> res S) l : (forall s x, In x l -> f s x = g s x) -> forall s, foldM f s l = foldM g s l.
Proof.
  induction l as [|x l IH]; intros H s; simpl; [reflexivity|]. rewrite (H s x) by (simpl; auto).
  destruct (g s x); simpl; auto. apply IH. intros; apply H; simpl; auto.
Qed.

(** ** Reading *)
Section SparseFacts.
Context {T : Type} (O : num T) (R : comring) (den : T -> car R) (L : lawful O R den).
Add Ring Rring2 : (r_theory R).

(** The polynomial of a map: the sum of its entries. *)
Definition sentries (m : bmap T) : list (car R * N) := map (fun kv => (den (snd kv), fst kv)) m.
Definition scoef (m : bmap T) : poly R := terms_coef (sentries m).

Lemma scoef_nil d : scoef [] d = r0.
Proof. reflexivity. Qed.

Lemma scoef_cons k v m : peq (scoef ((k, v) :: m)) (padd (pmono (den v) (N.to_nat k)) (scoef m)).
Proof. intros d. reflexivity. Qed.

Lemma scoef_app m1 m2 : peq (scoef (m1 ++ m2)) (padd (scoef m1) (scoef m2)).
Proof. unfold scoef, sentries. rewrite map_app. apply terms_coef_app. Qed.

Lemma scoef_notin m d : ~ In (N.of_nat d) (map fst m) -> scoef m d = r0.
Proof.
  intros H. apply terms_coef_notin. unfold sentries. rewrite map_map. exact H.
Qed.

Lemma scoef_get m d : StronglySorted key_lt m ->
  scoef m d = match m_get (N.of_nat d) m with Some v => den v | None => r0 end.
Proof.
  induction 1 as [|[k v] m Hs IH Hf]; [reflexivity|].
  rewrite scoef_cons. unfold padd, pmono. cbn [m_get].
  destruct (Nat.eqb_spec d (N.to_nat k)), (N.eqb_spec (N.of_nat d) k); try lia.
  - rewrite scoef_notin; [ring|]. intros Hi. apply in_map_iff in Hi. destruct Hi as ([k' v'] & E1 & Hi).
    rewrite Forall_forall in Hf. specialize (Hf _ Hi). unfold key_lt in Hf. simpl in *. lia.
  - rewrite IH. ring.
Qed.

Lemma scoef_insert m k v d : StronglySorted key_lt m ->
  scoef (m_insert k v m) d = if (d =? N.to_nat k)%nat then den v else scoef m d.
Proof.
  intros Hs. rewrite !scoef_get by auto using m_insert_sorted. rewrite m_get_insert.
  destruct (N.eqb_spec (N.of_nat d) k), (Nat.eqb_spec d (N.to_nat k)); try lia; reflexivity.
Qed.

(** One insertion-or-update. *)
Lemma m_upsert_spec (m : bmap T) k none some m' (g : car R -> car R) :
  swf m -> (k <= USIZE_MAX)%N ->
  (forall v, none = Ok v -> den v = g r0) -> (forall x v, some x = Ok v -> den v = g (den x)) ->
  m_upsert m k none some = Ok m' ->
  swf m' /\ forall d, scoef m' d = if (d =? N.to_nat k)%nat then g (scoef m d) else scoef m d.
Proof.
  intros Hw Hk Hn Hs H. unfold m_upsert in H. destruct (m_get k m) as [x|] eqn:E; inv_ok;
    (split; [apply m_insert_wf; assumption|]); intros d; rewrite scoef_insert by apply Hw;
    (destruct (Nat.eqb_spec d (N.to_nat k)) as [->|]; [|reflexivity]); rewrite scoef_get by apply Hw;
    rewrite N2Nat.id, E; auto.
Qed.

Lemma m_upsert_returns (m : bmap T) k none some : (exists m', m_upsert m k none some = Ok m') <->
  match m_get k m with None => exists v, none = Ok v | Some x => exists v, some x = Ok v end.
Proof.
  unfold m_upsert. destruct (m_get k m); split; intros (v & H).
  - inv_ok. eauto.
  - rewrite H. simpl. eauto.
  - inv_ok. eauto.
  - rewrite H. simpl. eauto.
Qed.

Lemma swf_cons (kv : N * T) m : swf (kv :: m) -> swf m /\ (fst kv <= USIZE_MAX)%N /\ Forall (key_lt kv) m.
Proof. intros [H1 H2]. inversion H1; subst. inversion H2; subst. repeat split; auto. Qed.

(** ** Degree *)

Lemma deg_loop_spec m : forall mt md, StronglySorted key_lt m -> Forall (fun kv => (md < fst kv)%N) m ->
  let '(c, d) := deg_loop O mt md m in
  ((c, d) = (mt, md) /\ Forall (fun kv => is_zero O (snd kv) = true) m) \/
  (exists m1 m2, m = m1 ++ (d, c) :: m2 /\ is_zero O c = false /\ Forall (fun kv => is_zero O (snd kv) = true) m2).
Proof.
  induction m as [|[k v] m IH]; intros mt md Hs Hf; cbn [deg_loop]; [left; auto|].
  inversion Hs as [|? ? Hs' Hk]; subst. inversion Hf as [|? ? Hmd Hf']; subst. simpl in Hmd.
  destruct (N.ltb_spec md k); [|lia]. cbn [andb]. destruct (is_zero O v) eqn:Ev; cbn [negb].
  - specialize (IH mt md Hs' Hf'). destruct (deg_loop O mt md m) as [c d].
    destruct IH as [[E Hz]|(m1 & m2 & -> & Hc & Hz)].
    + left. split; [exact E|]. constructor; auto.
    + right. exists ((k, v) :: m1), m2. auto.
  - specialize (IH v k Hs' Hk). destruct (deg_loop O v k m) as [c d].
    destruct IH as [[E Hz]|(m1 & m2 & -> & Hc & Hz)].
    + injection E as -> ->. right. exists [], m. auto.
    + right. exists ((k, v) :: m1), m2. auto.
Qed.

(** The entry that decides the degree. *)
Lemma sparse_degree_split m : StronglySorted key_lt m ->
  match sparse_degree O m with
  | NegInf => Forall (fun kv => is_zero O (snd kv) = true) m
  | Num d => exists m1 c m2, m = m1 ++ (d, c) :: m2 /\ is_zero O c = false /\
               Forall (fun kv => is_zero O (snd kv) = true) m2
  end.
Proof.
  intros Hs. unfold sparse_degree. destruct m as [|[k v] m]; [constructor|].
  inversion Hs as [|? ? Hs' Hk]; subst.
  pose proof (deg_loop_spec m v k Hs' Hk) as H. destruct (deg_loop O v k m) as [c d].
  destruct H as [[E Hz]|(m1 & m2 & -> & Hc & Hz)].
  - injection E as -> ->. destruct (is_zero O v) eqn:Ev; [constructor; auto|]. exists [], v, m. auto.
  - rewrite Hc. exists ((k, v) :: m1), c, m2. auto.
Qed.

Lemma scoef_zeros m : Forall (fun kv => is_zero O (snd kv) = true) m -> peq (scoef m) pzero.
Proof.
  induction 1 as [|[k v] m Hv Hf IH]; intros d; [reflexivity|]. rewrite scoef_cons. unfold padd, pmono.
  rewrite IH, (is_zero_den O R den L v Hv). unfold pzero. destruct (Nat.eqb d (N.to_nat k)); ring.
Qed.

Lemma scoef_above m (k : N) d : Forall (fun kv => (fst kv < k)%N) m -> (N.to_nat k <= d)%nat -> scoef m d = r0.
Proof.
  intros H Hd. apply scoef_notin. intros Hi. apply in_map_iff in Hi. destruct Hi as (kv & E & Hi).
  rewrite Forall_forall in H. specialize (H _ Hi). lia.
Qed.

Lemma scoef_split m m1 d c m2 : m = m1 ++ (d, c) :: m2 -> StronglySorted key_lt m -> is_zero O c = false ->
  Forall (fun kv => is_zero O (snd kv) = true) m2 ->
  is_degree (scoef m) (Some (N.to_nat d)) /\ scoef m (N.to_nat d) = den c /\ m_get d m = Some c.
Proof.
  intros -> Hs Hc Hz. destruct (sorted_app_inv _ _ Hs) as (H1 & H2 & H3).
  assert (Hg : m_get d (m1 ++ (d, c) :: m2) = Some c) by (apply sorted_in_get; [exact Hs|apply in_app_iff; simpl; auto]).
  assert (E : scoef (m1 ++ (d, c) :: m2) (N.to_nat d) = den c).
  { rewrite scoef_get by exact Hs. rewrite N2Nat.id, Hg. reflexivity. }
  split; [|auto]. split.
  - rewrite E. apply (is_zero_false_den O R den L c Hc).
  - intros i Hi. rewrite scoef_app. unfold padd. rewrite scoef_cons. unfold padd, pmono.
    rewrite (scoef_zeros m2 Hz). destruct (Nat.eqb_spec i (N.to_nat d)); [lia|].
    rewrite (scoef_above m1 d i); [unfold pzero; ring| |lia].
    rewrite Forall_forall. intros a Ha. apply (H3 a (d, c)); simpl; auto.
Qed.

Lemma sparse_degree_spec m : StronglySorted key_lt m -> is_degree (scoef m) (dn (sparse_degree O m)).
Proof.
  intros Hs. pose proof (sparse_degree_split m Hs) as H. destruct (sparse_degree O m) as [|d]; simpl.
  - apply scoef_zeros, H.
  - destruct H as (m1 & c & m2 & E & Hc & Hz). apply (scoef_split m m1 d c m2 E Hs Hc Hz).
Qed.

Lemma sparse_first_term_spec m : StronglySorted key_lt m ->
  match sparse_first_term O m with
  | ZeroTerm => peq (scoef m) pzero
  | TTerm c d => is_zero O c = false /\ scoef m (N.to_nat d) = den c /\ is_degree (scoef m) (Some (N.to_nat d)) /\
                 m_get d m = Some c
  end.
Proof.
  intros Hs. unfold sparse_first_term. pose proof (sparse_degree_split m Hs) as H.
  destruct (sparse_degree O m) as [|d].
  - apply scoef_zeros, H.
  - destruct H as (m1 & c & m2 & E & Hc & Hz). destruct (scoef_split m m1 d c m2 E Hs Hc Hz) as (A & B & C).
    rewrite C. unfold term_new. rewrite Hc. auto.
Qed.

Lemma sparse_first_term_degree m c d : StronglySorted key_lt m -> sparse_first_term O m = TTerm c d ->
  is_zero O c = false /\ scoef m (N.to_nat d) = den c /\ is_degree (scoef m) (Some (N.to_nat d)).
Proof. intros Hs E. pose proof (sparse_first_term_spec m Hs) as H. rewrite E in H. tauto. Qed.

Lemma sparse_first_term_zero m : StronglySorted key_lt m -> sparse_first_term O m = ZeroTerm <-> peq (scoef m) pzero.
Proof.
  intros Hs. pose proof (sparse_first_term_spec m Hs) as H. destruct (sparse_first_term O m) as [|c d]; split; auto.
  - discriminate.
  - intros H0. destruct H as (_ & _ & [Hn _] & _). exfalso. apply Hn, H0.
Qed.

(** The first term is determined by the polynomial. *)
Lemma sparse_first_term_of m n : StronglySorted key_lt m -> is_degree (scoef m) (Some n) ->
  exists c, sparse_first_term O m = TTerm c (N.of_nat n) /\ den c = scoef m n /\ is_zero O c = false.
Proof.
  intros Hs Hn. pose proof (sparse_first_term_spec m Hs) as H. destruct (sparse_first_term O m) as [|c d].
  - exfalso. apply Hn, H.
  - destruct H as (A & B & C & _). pose proof (is_degree_unique _ _ _ Hn C) as E. injection E as ->.
    exists c. rewrite N2Nat.id. auto.
Qed.

(** ** Single coefficient, listing, equality *)

Lemma sparse_term_with_degree_spec m d : StronglySorted key_lt m ->
  match sparse_term_with_degree O m d with
  | ZeroTerm => scoef m (N.to_nat d) = r0
  | TTerm c k => k = d /\ is_zero O c = false /\ scoef m (N.to_nat d) = den c
  end.
Proof.
  intros Hs. rewrite scoef_get by exact Hs. rewrite N2Nat.id. unfold sparse_term_with_degree.
  destruct (m_get d m) as [c|]; [|reflexivity]. unfold term_new. destruct (is_zero O c) eqn:E; [|auto].
  apply (is_zero_den O R den L c E).
Qed.

Lemma scoef_filter m : peq (scoef (filter (fun kv => negb (is_zero O (snd kv))) m)) (scoef m).
Proof.
  induction m as [|[k v] m IH]; intros d; [reflexivity|]. cbn [filter snd].
  destruct (is_zero O v) eqn:E; cbn [negb]; rewrite !scoef_cons; unfold padd, pmono; rewrite IH.
  - rewrite (is_zero_den O R den L v E). destruct (Nat.eqb d (N.to_nat k)); ring.
  - reflexivity.
Qed.

Lemma filter_sorted {A} (P : A -> A -> Prop) (f : A -> bool) l : StronglySorted P l -> StronglySorted P (filter f l).
Proof.
  induction 1 as [|x l Hs IH Hf]; simpl; [constructor|]. destruct (f x); [|exact IH]. constructor; [exact IH|].
  rewrite Forall_forall in *. intros y Hy. apply filter_In in Hy. apply Hf, Hy.
Qed.

Lemma filter_swf f (m : bmap T) : swf m -> swf (filter f m).
Proof.
  intros [H1 H2]. split; [apply filter_sorted, H1|]. rewrite Forall_forall in *. intros y Hy.
  apply filter_In in Hy. apply H2, Hy.
Qed.

Lemma sorted_rev {A} (P : A -> A -> Prop) l : StronglySorted P l -> StronglySorted (fun a b => P b a) (rev l).
Proof.
  induction 1 as [|x l Hs IH Hf]; simpl; [constructor|].
  assert (H : forall y, In y (rev l) -> P x y) by (intros y Hy; apply in_rev in Hy; rewrite Forall_forall in Hf; auto).
  revert H IH. generalize (rev l) as r. clear. induction r as [|y r IHr]; intros H IH; simpl.
  - constructor; constructor.
  - inversion IH; subst. constructor.
    + apply IHr; auto. intros; apply H; simpl; auto.
    + apply Forall_app. split; [assumption|]. constructor; [|constructor]. apply H. simpl. auto.
Qed.

Lemma terms_coef_rev (l : list (car R * N)) : peq (terms_coef (rev l)) (terms_coef l).
Proof.
  induction l as [|[c k] l IH]; [apply peq_refl|]. simpl rev. intros d. rewrite terms_coef_app.
  unfold padd. rewrite IH. simpl. unfold padd, pzero. ring.
Qed.

Lemma sparse_terms_spec m : StronglySorted key_lt m -> is_listing (scoef m) (dterms R den (sparse_terms O m)).
Proof.
  intros Hs. unfold sparse_terms. unfold dterms. rewrite map_map. cbn [fst snd].
  set (nz := fun kv : N * T => negb (is_zero O (snd kv))).
  assert (Hr : filter nz (rev m) = rev (filter nz m)).
  { clear. induction m as [|x m IH]; [reflexivity|]. simpl. rewrite filter_app, IH. simpl. destruct (nz x); simpl; [reflexivity|].
    apply app_nil_r. }
  rewrite Hr, map_rev. split; [|split].
  - pose proof (sorted_rev _ _ (filter_sorted _ nz _ Hs)) as H. revert H. rewrite <- map_rev.
    generalize (rev (filter nz m)) as r. induction 1 as [|x r Hx IHr Hf]; simpl; constructor; auto.
    rewrite Forall_forall in *. intros y Hy. apply in_map_iff in Hy. destruct Hy as (z & <- & Hz). simpl. apply Hf, Hz.
  - rewrite Forall_forall. intros t Ht. apply in_rev in Ht. apply in_map_iff in Ht. destruct Ht as (kv & <- & Hk).
    apply filter_In in Hk. destruct Hk as [_ Hk]. simpl. apply (is_zero_false_den O R den L). unfold nz in Hk.
    destruct (is_zero O (snd kv)); [discriminate|reflexivity].
  - intros d. rewrite terms_coef_rev. apply scoef_filter.
Qed.

Lemma sparse_trim_spec m : swf m -> swf (sparse_trim O m) /\ peq (scoef (sparse_trim O m)) (scoef m) /\
  Forall (fun kv => is_zero O (snd kv) = false) (sparse_trim O m).
Proof.
  intros Hw. split; [apply filter_swf, Hw|]. split; [apply scoef_filter|].
  rewrite Forall_forall. intros kv Hk. apply filter_In in Hk. destruct Hk as [_ Hk]. destruct (is_zero O (snd kv)); [discriminate|reflexivity].
Qed.

Lemma forallb_eq_half a b : StronglySorted key_lt a -> StronglySorted key_lt b ->
  forallb (fun kv => match m_get (fst kv) b with None => is_zero O (snd kv) | Some v => eqb O (snd kv) v end) a = true <->
  (forall kv, In kv a -> den (snd kv) = scoef b (N.to_nat (fst kv))).
Proof.
  intros Ha Hb. rewrite forallb_forall. split; intros H kv Hi; specialize (H kv Hi);
    rewrite scoef_get in * by exact Hb; rewrite N2Nat.id in *; destruct (m_get (fst kv) b).
  - apply (lw_eqb _ _ _ L), H.
  - apply (lw_is_zero _ _ _ L), H.
  - apply (lw_eqb _ _ _ L), H.
  - apply (lw_is_zero _ _ _ L), H.
Qed.

Lemma sparse_eq_spec a b : StronglySorted key_lt a -> StronglySorted key_lt b ->
  sparse_eq O a b = true <-> peq (scoef a) (scoef b).
Proof.
  intros Ha Hb. unfold sparse_eq. rewrite andb_true_iff, !forallb_eq_half by assumption.
  split.
  - intros [H1 H2] d. rewrite (scoef_get a) by exact Ha. destruct (m_get (N.of_nat d) a) as [x|] eqn:E.
    + apply m_get_in in E. specialize (H1 _ E). cbn [fst snd] in H1. rewrite H1, Nat2N.id. reflexivity.
    + rewrite scoef_get by exact Hb. destruct (m_get (N.of_nat d) b) as [y|] eqn:E2; [|reflexivity].
      apply m_get_in in E2. specialize (H2 _ E2). simpl in H2. rewrite H2, Nat2N.id, scoef_get, E by exact Ha. reflexivity.
  - intros H. split; intros [k v] Hi; simpl.
    + rewrite <- H, scoef_get, N2Nat.id, (sorted_in_get a k v Ha Hi) by exact Ha. reflexivity.
    + rewrite H, scoef_get, N2Nat.id, (sorted_in_get b k v Hb Hi) by exact Hb. reflexivity.
Qed.

End SparseFacts.
