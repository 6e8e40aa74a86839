(** [SparsePolynomial<N>] over corresponding coefficient types (see Sim.v). *)

From Coq Require Import List NArith ZArith Lia Bool Arith.
From Coq Require Import ZifyBool ZifyNat ZifyN.
From Verif Require Import Base Num Terms Dense Sparse Sim.
Import ListNotations.

Definition entry_rel {A B} (r : A -> B -> Prop) (x : N * A) (y : N * B) : Prop := fst x = fst y /\ r (snd x) (snd y).

Section Sim.
Context {A B : Type} (OA : num A) (OB : num B) (r : A -> B -> Prop) (cap : bool).
Hypothesis S : sim OA OB r cap.
Notation rr := (rres cap).
Notation rl := (Forall2 r).
Notation tr := (term_rel r).
Notation tmr := (Term_rel r).
Notation er := (entry_rel r).
Notation ml := (Forall2 (entry_rel r)).

Ltac rz := repeat match goal with
  | H : r ?x ?y |- context [is_zero OA ?x] => rewrite (sm_is_zero _ _ _ _ S x y H)
  end.

Lemma sim_m_get k m n : ml m n ->
  match m_get k m, m_get k n with Some a, Some b => r a b | None, None => True | _, _ => False end.
Proof.
  induction 1 as [|[i x] [j y] m n [H1 H2] H IH]; simpl in *; [exact I|]. subst j. destruct (_ =? _)%N; assumption.
Qed.
Lemma sim_m_insert k x y m n : r x y -> ml m n -> ml (m_insert k x m) (m_insert k y n).
Proof.
  intros Hx. induction 1 as [|[i u] [j v] m n [H1 H2] H IH]; simpl in *; [repeat constructor; assumption|]. subst j.
  destruct (N.compare k i); repeat (constructor; try assumption).
Qed.
Lemma sim_upsert m n k x y f g : ml m n -> rr r x y -> (forall a b, r a b -> rr r (f a) (g b)) ->
  rr ml (m_upsert m k x f) (m_upsert n k y g).
Proof.
  intros H Hx Hf. unfold m_upsert. pose proof (sim_m_get k _ _ H) as K.
  destruct (m_get k m), (m_get k n); try contradiction.
  - eapply rres_bind; [apply Hf, K|]. intros u v Huv. apply rres_ok, sim_m_insert; assumption.
  - eapply rres_bind; [exact Hx|]. intros u v Huv. apply rres_ok, sim_m_insert; assumption.
Qed.

(** a loop over the entries of a map that builds a map *)
Lemma sim_fold_entries (f : bmap A -> N * A -> res (bmap A)) (g : bmap B -> N * B -> res (bmap B)) :
  (forall m n k x y, ml m n -> r x y -> rr ml (f m (k, x)) (g n (k, y))) ->
  forall m n a b, ml m n -> ml a b -> rr ml (foldM f a m) (foldM g b n).
Proof.
  intros H m n a b Hm Hab. eapply (sim_foldM cap er ml); [|exact Hm|exact Hab].
  intros a' b' [k x] [k' y] Hab' [H1 H2]. simpl in *. subst k'. apply H; assumption.
Qed.
Lemma sim_fold_entries_bounded (f : bmap A -> N * A -> res (bmap A)) (g : bmap B -> N * B -> res (bmap B)) :
  (forall m n k x y, (k <= USIZE_MAX)%N -> ml m n -> r x y -> rr ml (f m (k, x)) (g n (k, y))) ->
  forall m n, (forall k v, In (k, v) m -> (k <= USIZE_MAX)%N) -> ml m n ->
  forall a b, ml a b -> rr ml (foldM f a m) (foldM g b n).
Proof.
  intros H m n Hk Hm. induction Hm as [|[k x] [k' y] m n [H1 H2] Hm IH]; intros a b Hab; [apply rres_ok, Hab|].
  simpl in H1, H2. subst k'. cbn [foldM]. eapply rres_bind; [apply H; [apply (Hk k x); left; reflexivity|exact Hab|exact H2]|].
  intros u v Huv. apply IH; [intros k' v' K; apply (Hk k' v'); right; exact K|exact Huv].
Qed.

Lemma sim_map_mul_row d x y m n t t' : r x y -> ml m n -> ml t t' ->
  rr ml (map_mul_row OA d x t m) (map_mul_row OB d y t' n).
Proof.
  intros Hx Hm Ht. unfold map_mul_row. apply sim_fold_entries; [|exact Hm|exact Ht].
  intros m' n' k u v H Huv. cbn [fst snd]. apply rres_bind_eq; [eapply sim_uadd; exact S|]. intros d'.
  apply sim_upsert; [exact H|apply (sm_mul _ _ _ _ S); assumption|]. intros a b Hab.
  eapply rres_bind; [apply (sm_mul _ _ _ _ S); eassumption|]. intros p q Hpq. apply (sm_add _ _ _ _ S); assumption.
Qed.
Lemma sim_sparse_mul a b c d : ml a b -> ml c d -> rr ml (sparse_mul OA a c) (sparse_mul OB b d).
Proof.
  intros H H'. unfold sparse_mul. apply sim_fold_entries; [|exact H'|constructor].
  intros m n k x y Hm Hx. cbn [fst snd]. rz. destruct (is_zero OB y); [apply rres_ok, Hm|]. apply sim_map_mul_row; assumption.
Qed.
Lemma sim_map_sub_w_scale a b c d x y : ml a b -> ml c d -> r x y ->
  rr ml (map_sub_w_scale OA a c x) (map_sub_w_scale OB b d y).
Proof.
  intros H H' Hx. unfold map_sub_w_scale. apply sim_fold_entries; [|exact H'|exact H].
  intros m n k u v Hm Hu. cbn [fst snd]. apply sim_upsert; [exact Hm| |].
  - eapply rres_bind; [apply (sm_neg _ _ _ _ S), Hu|]. intros p q Hpq. apply (sm_mul _ _ _ _ S); assumption.
  - intros a' b' Hab. eapply rres_bind; [apply (sm_mul _ _ _ _ S); eassumption|]. intros p q Hpq.
    apply (sm_sub _ _ _ _ S); assumption.
Qed.

Lemma sim_deg_loop m n : ml m n -> forall x y d, r x y ->
  r (fst (deg_loop OA x d m)) (fst (deg_loop OB y d n)) /\ snd (deg_loop OA x d m) = snd (deg_loop OB y d n).
Proof.
  induction 1 as [|[k u] [k' v] m n [H1 H2] H IH]; intros x y d Hx; simpl in *; [split; [exact Hx|reflexivity]|].
  subst k'. rz. destruct (_ && _); apply IH; assumption.
Qed.
Lemma sim_sparse_degree m n : ml m n -> sparse_degree OA m = sparse_degree OB n.
Proof.
  intros H. destruct H as [|[k u] [k' v] m n [H1 H2] H]; [reflexivity|]. simpl in *. subst k'.
  pose proof (sim_deg_loop _ _ H u v k H2) as [K1 K2]. destruct (deg_loop OA u k m), (deg_loop OB v k n). simpl in *. subst.
  rz. reflexivity.
Qed.
Lemma sim_sparse_first_term m n : ml m n -> tmr (sparse_first_term OA m) (sparse_first_term OB n).
Proof.
  intros H. unfold sparse_first_term. rewrite (sim_sparse_degree _ _ H). destruct (sparse_degree OB n) as [|d]; [exact I|].
  pose proof (sim_m_get d _ _ H) as K. destruct (m_get d m), (m_get d n); try contradiction; [|exact I].
  eapply sim_term_new; eassumption.
Qed.
Lemma sim_sparse_term_with_degree m n d : ml m n -> tmr (sparse_term_with_degree OA m d) (sparse_term_with_degree OB n d).
Proof.
  intros H. unfold sparse_term_with_degree. pose proof (sim_m_get d _ _ H) as K.
  destruct (m_get d m), (m_get d n); try contradiction; [|exact I]. eapply sim_term_new; eassumption.
Qed.
Lemma ml_rev m n : ml m n -> ml (rev m) (rev n).
Proof. induction 1; simpl; [constructor|]. apply Forall2_app; [assumption|]. constructor; [assumption|constructor]. Qed.
Lemma ml_filter m n : ml m n -> ml (filter (fun kv => negb (is_zero OA (snd kv))) m) (filter (fun kv => negb (is_zero OB (snd kv))) n).
Proof.
  induction 1 as [|[k x] [k' y] m n [H1 H2] H IH]; simpl in *; [constructor|]. subst k'. rz.
  destruct (is_zero OB y); simpl; [exact IH|]. constructor; [split; [reflexivity|exact H2]|exact IH].
Qed.
Lemma sim_sparse_terms m n : ml m n -> Forall2 tr (sparse_terms OA m) (sparse_terms OB n).
Proof.
  intros H. unfold sparse_terms. apply ml_rev, ml_filter in H. induction H as [|[k x] [k' y] m' n' [H1 H2] H IH]; simpl; [constructor|].
  constructor; [split; simpl in *; auto|exact IH].
Qed.

Lemma sim_sparse_add_term m n c c' d : ml m n -> r c c' -> rr ml (sparse_add_term OA m c d) (sparse_add_term OB n c' d).
Proof.
  intros H Hc. unfold sparse_add_term. rz. destruct (is_zero OB c'); [apply rres_ok, H|].
  apply sim_upsert; [exact H|apply rres_ok, Hc|]. intros a b Hab. apply (sm_add _ _ _ _ S); assumption.
Qed.
Lemma sim_sparse_try_add_term m n c c' d : ml m n -> r c c' ->
  rr (mut_rel ml) (sparse_try_add_term OA m c d) (sparse_try_add_term OB n c' d).
Proof.
  intros H Hc. unfold sparse_try_add_term. eapply rres_bind; [apply sim_sparse_add_term; eassumption|].
  intros a b Hab. apply rres_ok. split; [exact Hab|reflexivity].
Qed.
Lemma sim_sparse_try_sub_term m n c c' d : can_negate OA = can_negate OB -> ml m n -> r c c' ->
  rr (mut_rel ml) (sparse_try_sub_term OA m c d) (sparse_try_sub_term OB n c' d).
Proof.
  intros Hn H Hc. unfold sparse_try_sub_term. rz. destruct (is_zero OB c'); [apply rres_ok; split; [exact H|reflexivity]|].
  pose proof (sim_m_get d _ _ H) as K. destruct (m_get d m), (m_get d n); try contradiction.
  - eapply rres_bind; [apply (sm_sub _ _ _ _ S); eassumption|]. intros u v Huv. apply rres_ok.
    split; [apply sim_m_insert; assumption|reflexivity].
  - rewrite Hn. destruct (can_negate OB); [|apply rres_ok; split; [exact H|reflexivity]]. cbn [negb].
    eapply rres_bind; [apply (sm_sub _ _ _ _ S); [apply (sm_zero _ _ _ _ S)|exact Hc]|]. intros u v Huv. apply rres_ok.
    split; [apply sim_m_insert; assumption|reflexivity].
Qed.
Lemma sim_sparse_from_terms ts ts' : Forall2 tr ts ts' -> rr ml (sparse_from_terms OA ts) (sparse_from_terms OB ts').
Proof.
  intros H. unfold sparse_from_terms. eapply (sim_foldM cap tr ml); [|exact H|constructor].
  intros a b c d Hab (H1 & H2). rewrite H2. apply sim_sparse_add_term; assumption.
Qed.
Lemma sim_from_vec_loop l m : rl l m -> forall d i a b, ml a b -> rr ml (from_vec_loop OA d i l a) (from_vec_loop OB d i m b).
Proof.
  induction 1 as [|x y l m Hx H IH]; intros d i a b Hab; simpl; [apply rres_ok, Hab|]. rz.
  destruct (is_zero OB y); [apply IH, Hab|]. apply rres_bind_eq; [eapply sim_usub; exact S|]. intros k.
  apply IH, sim_m_insert; assumption.
Qed.
Lemma sim_sparse_from_vec l m : rl l m -> rr ml (sparse_from_vec OA l) (sparse_from_vec OB m).
Proof.
  intros H. pose proof (sim_from_vec_loop _ _ H) as K. unfold sparse_from_vec.
  rewrite (rl_lenN _ _ _ H). destruct H; [apply rres_ok; constructor|].
  apply rres_bind_eq; [eapply sim_usub; exact S|]. intros d. apply K; constructor.
Qed.

Lemma sim_sparse_eval (P : sim_upow OA OB r cap) m n p q : ml m n -> r p q -> rr r (sparse_eval OA m p) (sparse_eval OB n q).
Proof.
  intros H Hp. unfold sparse_eval. eapply (sim_foldM cap er r); [|exact H|apply (sm_zero _ _ _ _ S)].
  intros a b [k x] [k' y] Hab [H1 H2]. simpl in *. subst k'. eapply rres_bind; [apply P, Hp|]. intros u v Huv.
  eapply rres_bind; [apply (sm_mul _ _ _ _ S); eassumption|]. intros u' v' Huv'. apply (sm_add _ _ _ _ S); assumption.
Qed.
Lemma sim_sparse_derivative m n : (forall k v, In (k, v) m -> (k <= USIZE_MAX)%N) -> ml m n ->
  rr ml (sparse_derivative OA m) (sparse_derivative OB n).
Proof.
  intros Hk H. unfold sparse_derivative. apply sim_fold_entries_bounded; [|exact Hk|exact H|constructor].
  intros m' n' k x y Kk Hm Hx. cbn [fst snd]. rz. destruct (_ && _); [|apply rres_ok, Hm].
  apply rres_bind_eq; [eapply sim_usub; exact S|]. intros k'.
  eapply rres_bind; [eapply sim_expect_exact; eassumption|]. intros u v Huv.
  eapply rres_bind; [apply (sm_mul _ _ _ _ S); eassumption|]. intros p q Hpq. apply rres_ok, sim_m_insert; assumption.
Qed.
Lemma sim_sparse_pow f : forall m n e, ml m n -> rr ml (sparse_pow OA f m e) (sparse_pow OB f n e).
Proof.
  induction f as [|f IH]; intros m n e H; simpl; [exact I|].
  destruct (e =? 0)%N; [apply rres_ok; repeat constructor; apply (sm_one _ _ _ _ S)|].
  destruct (e =? 1)%N; [apply rres_ok, H|]. destruct (e =? 2)%N; [apply sim_sparse_mul; exact H|].
  destruct (_ =? _)%N; (eapply rres_bind; [apply IH, H|]); intros a b Hab; [apply IH, Hab|apply sim_sparse_mul; assumption].
Qed.

Lemma sim_all_match a b c d : ml a b -> ml c d ->
  forallb (fun kv => match m_get (fst kv) c with None => is_zero OA (snd kv) | Some v => eqb OA (snd kv) v end) a =
  forallb (fun kv => match m_get (fst kv) d with None => is_zero OB (snd kv) | Some v => eqb OB (snd kv) v end) b.
Proof.
  intros H H'. induction H as [|[k x] [k' y] a b [H1 H2] H IH]; [reflexivity|]. simpl in *. subst k'. rewrite IH. f_equal.
  pose proof (sim_m_get k _ _ H') as K. destruct (m_get k c), (m_get k d); try contradiction.
  - apply (sm_eqb _ _ _ _ S); assumption.
  - apply (sm_is_zero _ _ _ _ S), H2.
Qed.
Lemma sim_sparse_eq a b c d : ml a b -> ml c d -> sparse_eq OA a c = sparse_eq OB b d.
Proof. intros H H'. unfold sparse_eq. f_equal; apply sim_all_match; assumption. Qed.

Lemma sim_sparse_map_rebuild f g m n : (forall x y, r x y -> rr r (f x) (g y)) -> ml m n ->
  rr ml (sparse_map_rebuild f m) (sparse_map_rebuild g n).
Proof.
  intros Hf H. unfold sparse_map_rebuild. apply sim_fold_entries; [|exact H|constructor].
  intros a b k x y Hab Hx. eapply rres_bind; [apply Hf, Hx|]. intros u v Huv. apply rres_ok, sim_m_insert; assumption.
Qed.
Lemma sim_sparse_map_inplace f g m n : (forall x y, r x y -> rr r (f x) (g y)) -> ml m n ->
  rr ml (sparse_map_inplace f m) (sparse_map_inplace g n).
Proof.
  intros Hf H. unfold sparse_map_inplace. induction H as [|[k x] [k' y] m n [H1 H2] H IH]; cbn [mapM]; [apply rres_ok; constructor|].
  simpl in H1, H2. subst k'. cbn [fst snd]. eapply (rres_bind cap er).
  - eapply rres_bind; [apply Hf, H2|]. intros u v Huv. apply rres_ok. split; [reflexivity|exact Huv].
  - intros u v Huv. eapply rres_bind; [exact IH|]. intros p q Hpq. apply rres_ok. constructor; assumption.
Qed.
Lemma sim_sparse_neg m n : ml m n -> rr ml (sparse_neg OA m) (sparse_neg OB n).
Proof. intros H. apply sim_sparse_map_rebuild; [apply (sm_neg _ _ _ _ S)|exact H]. Qed.
Lemma sim_sparse_scale m n c d : ml m n -> r c d -> rr ml (sparse_scale OA m c) (sparse_scale OB n d).
Proof. intros H Hc. apply sim_sparse_map_rebuild; [|exact H]. intros x y Hx. apply (sm_mul _ _ _ _ S); assumption. Qed.
Lemma sim_sparse_scale_assign m n c d : ml m n -> r c d -> rr ml (sparse_scale_assign OA m c) (sparse_scale_assign OB n d).
Proof. intros H Hc. apply sim_sparse_map_inplace; [|exact H]. intros x y Hx. apply (sm_mul _ _ _ _ S); assumption. Qed.

Lemma sim_sparse_sub a b c d : ml a b -> ml c d -> rr ml (sparse_sub OA a c) (sparse_sub OB b d).
Proof.
  intros H H'. unfold sparse_sub. apply sim_fold_entries; [|exact H'|exact H]. intros m n k x y Hm Hx. cbn [fst snd].
  apply sim_upsert; [exact Hm|apply (sm_neg _ _ _ _ S), Hx|]. intros u v Huv. apply (sm_sub _ _ _ _ S); assumption.
Qed.
Lemma sim_sparse_sub_dense a b c d : ml a b -> rl c d -> rr ml (sparse_sub_dense OA a c) (sparse_sub_dense OB b d).
Proof.
  intros H H'. unfold sparse_sub_dense. eapply rres_bind; [apply (sim_dense_terms _ _ _ _ S), H'|]. intros ts ts' Hts.
  eapply (sim_foldM cap tr ml); [|exact Hts|exact H]. intros m n [x k] [y k'] Hm [H1 H2]. simpl in *. subst k'.
  apply sim_upsert; [exact Hm|apply (sm_neg _ _ _ _ S), H1|]. intros u v Huv. apply (sm_sub _ _ _ _ S); assumption.
Qed.
Lemma sim_sparse_add_assign a b c d : ml a b -> ml c d -> rr ml (sparse_add_assign OA a c) (sparse_add_assign OB b d).
Proof.
  intros H H'. unfold sparse_add_assign. apply sim_fold_entries; [|exact H'|exact H]. intros m n k x y Hm Hx. cbn [fst snd].
  apply sim_upsert; [exact Hm|apply rres_ok, Hx|]. intros u v Huv. apply (sm_add _ _ _ _ S); assumption.
Qed.
Lemma sim_sparse_add a b c d : ml a b -> ml c d -> rr ml (sparse_add OA a c) (sparse_add OB b d).
Proof.
  intros H H'. unfold sparse_add. apply sim_fold_entries; [|exact H|].
  - intros m n k x y Hm Hx. cbn [fst snd].
    apply sim_upsert; [exact Hm|apply rres_ok, Hx|]. intros u v Huv. apply (sm_add _ _ _ _ S); assumption.
  - assert (K : forall p q, ml p q -> ml (fold_left (fun m kv => m_insert (fst kv) (snd kv) m) c p)
                                       (fold_left (fun m kv => m_insert (fst kv) (snd kv) m) d q)).
    { clear H a b. induction H' as [|[k x] [k' y] c d [H1 H2] H IH]; intros p q Hpq; simpl in *; [exact Hpq|]. subst k'.
      apply IH, sim_m_insert; assumption. }
    apply K. constructor.
Qed.
Lemma sim_sparse_shift f : forall left m n k, ml m n -> rr ml (sparse_shift OA f left m k) (sparse_shift OB f left n k).
Proof.
  induction f as [|f IH]; intros left m n k H; simpl; [exact I|].
  destruct (k <? 0)%Z; [apply rres_bind_eq; [eapply sim_neg_i32; exact S|]; intros k'; apply IH, H|].
  destruct left; (apply sim_fold_entries; [|exact H|constructor]); intros a b i x y Hab Hx; cbn [fst snd].
  - apply rres_bind_eq; [eapply sim_uadd; exact S|]. intros d. apply rres_ok, sim_m_insert; assumption.
  - destruct (_ <=? _)%N; [|apply rres_ok, Hab].
    apply rres_bind_eq; [eapply sim_usub; exact S|]. intros d. apply rres_ok, sim_m_insert; assumption.
Qed.

Section Div.
Hypothesis D : sim_div OA OB r cap.
(** The new key [k + 1] may wrap around in a release build; it is a [usize] in any case. *)
Lemma uadd_usize chk a b c : uadd chk a b = Ok c -> (c <= USIZE_MAX)%N.
Proof.
  unfold uadd. destruct (N.leb_spec (a + b) USIZE_MAX) as [H|H]; [intros E; inversion E; subst; exact H|].
  destruct chk; [discriminate|]. intros E. inversion E as [K]. unfold USIZE_MOD, USIZE_MAX.
  pose proof (N.mod_lt (a + b) (2 ^ 64)%N ltac:(discriminate)). change (2 ^ 64)%N with 18446744073709551616%N in *. lia.
Qed.
Lemma sim_sparse_integral m n : ml m n -> rr ml (sparse_integral OA m) (sparse_integral OB n).
Proof.
  intros H. unfold sparse_integral. apply sim_fold_entries; [|exact H|constructor].
  intros a b k x y Hab Hx. cbn [fst snd]. pose proof (sim_uadd OA OB r cap S k 1) as K.
  destruct (uadd (n_chk OA) k 1) as [k1| |] eqn:E; cbn [bind]; try exact I.
  destruct K as [(k2 & E2 & <-)|(Hc & E2)]; rewrite E2; cbn [bind].
  - eapply rres_bind; [eapply sim_expect_exact; [exact S|eapply uadd_usize, E]|]. intros u v Huv.
    eapply rres_bind; [apply D; eassumption|]. intros p q Hpq. apply rres_ok, sim_m_insert; assumption.
  - destruct (expect (of_exact OA k1)) as [u| |]; simpl; auto. destruct (div OA x u) as [w| |]; simpl; auto.
Qed.
Lemma sim_sparse_div_scalar m n c d : ml m n -> r c d -> rr ml (sparse_div_scalar OA m c) (sparse_div_scalar OB n d).
Proof. intros H Hc. apply sim_sparse_map_rebuild; [|exact H]. intros x y Hx. apply D; assumption. Qed.
Lemma sim_sparse_div_scalar_assign m n c d : ml m n -> r c d ->
  rr ml (sparse_div_scalar_assign OA m c) (sparse_div_scalar_assign OB n d).
Proof. intros H Hc. apply sim_sparse_map_inplace; [|exact H]. intros x y Hx. apply D; assumption. Qed.

Lemma sim_sparse_div_loop f : forall rhs rhs' a b deg off c c' sd rem rem' dv dv',
  ml rhs rhs' -> r a b -> r c c' -> ml rem rem' -> ml dv dv' ->
  rr (pair_rel ml) (sparse_div_loop OA f rhs a deg off c sd rem dv) (sparse_div_loop OB f rhs' b deg off c' sd rem' dv').
Proof.
  induction f as [|f IH]; intros rhs rhs' a b deg off c c' sd rem rem' dv dv' H1 H2 H3 H4 H5; simpl; [exact I|].
  destruct (_ <=? _)%N; [|apply rres_ok; split; assumption].
  eapply rres_bind; [apply sim_map_sub_w_scale; eassumption|]. intros u v Huv.
  eapply rres_bind; [apply sim_sparse_add_term; eassumption|]. intros p q Hpq.
  pose proof (sim_sparse_first_term _ _ Huv) as K.
  destruct (sparse_first_term OA u), (sparse_first_term OB v); simpl in K; try contradiction; [apply rres_ok; split; assumption|].
  destruct K as [K1 <-]. eapply rres_bind; [apply D; eassumption|]. intros s s' Hs. apply IH; assumption.
Qed.
Lemma sim_sparse_div_mod f a b c d : ml a b -> ml c d -> rr (pair_rel ml) (sparse_div_mod OA f a c) (sparse_div_mod OB f b d).
Proof.
  intros H H'. unfold sparse_div_mod. pose proof (sim_sparse_first_term _ _ H) as K. pose proof (sim_sparse_first_term _ _ H') as K'.
  destruct (sparse_first_term OA c), (sparse_first_term OB d); simpl in K'; try contradiction; [exact I|]. destruct K' as [K1' <-].
  destruct (sparse_first_term OA a), (sparse_first_term OB b); simpl in K; try contradiction;
    [apply rres_ok; split; [constructor|exact H]|]. destruct K as [K1 <-].
  destruct (_ <? _)%N; [apply rres_ok; split; [constructor|exact H]|].
  eapply rres_bind; [apply D; eassumption|]. intros s s' Hs.
  apply rres_bind_eq; [eapply sim_usub; exact S|]. intros off. apply sim_sparse_div_loop; try assumption. constructor.
Qed.
Lemma sim_sparse_rem_loop f : forall rhs rhs' a b deg c c' sd p p',
  ml rhs rhs' -> r a b -> r c c' -> ml p p' ->
  rr ml (sparse_rem_loop OA f rhs a deg c sd p) (sparse_rem_loop OB f rhs' b deg c' sd p').
Proof.
  induction f as [|f IH]; intros rhs rhs' a b deg c c' sd p p' H1 H2 H3 H4; simpl; [exact I|].
  destruct (_ <=? _)%N; [|apply rres_ok, H4].
  eapply rres_bind; [apply sim_map_sub_w_scale; eassumption|]. intros u v Huv. pose proof (sim_sparse_first_term _ _ Huv) as K.
  destruct (sparse_first_term OA u), (sparse_first_term OB v); simpl in K; try contradiction; [apply rres_ok, Huv|].
  destruct K as [K1 <-]. eapply rres_bind; [apply D; eassumption|]. intros s s' Hs. apply IH; assumption.
Qed.
Lemma sim_sparse_rem f a b c d : ml a b -> ml c d -> rr ml (sparse_rem OA f a c) (sparse_rem OB f b d).
Proof.
  intros H H'. unfold sparse_rem. pose proof (sim_sparse_first_term _ _ H) as K. pose proof (sim_sparse_first_term _ _ H') as K'.
  destruct (sparse_first_term OA c), (sparse_first_term OB d); simpl in K'; try contradiction; [exact I|]. destruct K' as [K1' <-].
  destruct (sparse_first_term OA a), (sparse_first_term OB b); simpl in K; try contradiction; [apply rres_ok, H|]. destruct K as [K1 <-].
  destruct (_ <? _)%N; [apply rres_ok, H|].
  eapply rres_bind; [apply D; eassumption|]. intros s s' Hs. apply sim_sparse_rem_loop; assumption.
Qed.
End Div.
End Sim.
