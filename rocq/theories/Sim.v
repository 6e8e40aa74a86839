(** Two coefficient types with corresponding values: the same calls on corresponding
    polynomials give corresponding results.

    [sim OA OB r cap]: whenever an operation of [OA] returns, the operation of [OB] on
    [r]-related arguments returns an [r]-related value ([cap]: or the larger element size
    exhausts the address space, [Panic PCapacity]). *)

From Coq Require Import List NArith ZArith Lia Bool Arith.
From Coq Require Import ZifyBool ZifyNat ZifyN.
From Verif Require Import Base Num Terms Dense Sparse Mono Bino Trino.
Import ListNotations.

(** [y] returns whatever [x] returns, up to [R]. *)
Definition rres (cap : bool) {X Y} (R : X -> Y -> Prop) (x : res X) (y : res Y) : Prop :=
  match x with
  | Ok a => (exists b, y = Ok b /\ R a b) \/ (cap = true /\ y = Panic PCapacity)
  | _ => True
  end.

Record sim {A B} (OA : num A) (OB : num B) (r : A -> B -> Prop) (cap : bool) : Prop := {
  sm_chk : n_chk OA = n_chk OB \/ n_chk OA = true;
  sm_cap : cap = true \/ (n_max_len OA <= n_max_len OB)%N;
  sm_zero : r (zero OA) (zero OB);
  sm_one : r (one OA) (one OB);
  sm_is_zero : forall a b, r a b -> is_zero OA a = is_zero OB b;
  sm_eqb : forall a b a' b', r a b -> r a' b' -> eqb OA a a' = eqb OB b b';
  sm_is_pos : forall a b, r a b -> is_pos OA a = is_pos OB b;
  sm_neg_one : forall a b, r a b -> is_neg_one OA a = is_neg_one OB b;
  sm_add : forall a b a' b', r a b -> r a' b' -> rres cap r (add OA a a') (add OB b b');
  sm_sub : forall a b a' b', r a b -> r a' b' -> rres cap r (sub OA a a') (sub OB b b');
  sm_mul : forall a b a' b', r a b -> r a' b' -> rres cap r (mul OA a a') (mul OB b b');
  sm_neg : forall a b, r a b -> rres cap r (neg OA a) (neg OB b);
  sm_absv : forall a b, r a b -> rres cap r (absv OA a) (absv OB b);
  sm_cont : forall n a, (n <= USIZE_MAX)%N -> of_cont OA n = Some a -> exists b, of_cont OB n = Some b /\ r a b;
  sm_exact : forall n a, (n <= USIZE_MAX)%N -> of_exact OA n = Some a -> exists b, of_exact OB n = Some b /\ r a b
}.

(** Division and powers, when they correspond too. *)
Definition sim_div {A B} (OA : num A) (OB : num B) (r : A -> B -> Prop) cap : Prop :=
  forall a b a' b', r a b -> r a' b' -> rres cap r (div OA a a') (div OB b b').
Definition sim_upow {A B} (OA : num A) (OB : num B) (r : A -> B -> Prop) cap : Prop :=
  forall a b e, r a b -> rres cap r (upow OA a e) (upow OB b e).

Lemma rres_ok cap {X Y} (R : X -> Y -> Prop) a b : R a b -> rres cap R (Ok a) (Ok b).
Proof. intros H. left. eauto. Qed.
Lemma rres_bind cap {X Y X' Y'} (R : X -> Y -> Prop) (R' : X' -> Y' -> Prop) x y f g :
  rres cap R x y -> (forall a b, R a b -> rres cap R' (f a) (g b)) -> rres cap R' (bind x f) (bind y g).
Proof.
  intros H1 H2. destruct x as [a| |]; simpl in *; try exact I.
  destruct H1 as [(b & -> & Hb)|(Hc & ->)]; simpl; [apply H2, Hb|].
  destruct (f a); simpl; auto.
Qed.
Lemma rres_bind_eq cap {X X' Y'} (R' : X' -> Y' -> Prop) (x y : res X) f g :
  rres cap eq x y -> (forall a, rres cap R' (f a) (g a)) -> rres cap R' (bind x f) (bind y g).
Proof. intros H1 H2. eapply rres_bind; [exact H1|]. intros a b <-. apply H2. Qed.
Lemma rres_same cap {X} (x : res X) : rres cap eq x x.
Proof. destruct x; simpl; eauto. Qed.
Lemma rres_mono cap {X Y} (R R' : X -> Y -> Prop) x y : (forall a b, R a b -> R' a b) -> rres cap R x y -> rres cap R' x y.
Proof. intros H. destruct x; simpl; auto. intros [(b & -> & Hb)|K]; eauto. Qed.

(** Related terms, as listed and as returned. *)
Definition term_rel {A B} (r : A -> B -> Prop) (x : A * N) (y : B * N) : Prop := r (fst x) (fst y) /\ snd x = snd y.
Definition Term_rel {A B} (r : A -> B -> Prop) (x : term A) (y : term B) : Prop :=
  match x, y with ZeroTerm, ZeroTerm => True | TTerm c d, TTerm c' d' => r c c' /\ d = d' | _, _ => False end.
(** Outcomes of mutating methods: the same error. *)
Definition mut_rel {X Y} (R : X -> Y -> Prop) (x : X * option try_add_err) (y : Y * option try_add_err) : Prop :=
  R (fst x) (fst y) /\ snd x = snd y.

Section Sim.
Context {A B : Type} (OA : num A) (OB : num B) (r : A -> B -> Prop) (cap : bool).
Hypothesis S : sim OA OB r cap.
Notation rr := (rres cap).
Notation rl := (Forall2 r).
Notation tr := (term_rel r).
Notation tmr := (Term_rel r).

Lemma rl_len (a : list A) (b : list B) : rl a b -> length a = length b.
Proof. induction 1; simpl; congruence. Qed.
Lemma rl_lenN (a : list A) (b : list B) : rl a b -> len a = len b.
Proof. intros H. unfold len. rewrite (rl_len _ _ H). reflexivity. Qed.

(** ** usize *)
Lemma sim_uadd a b : rr eq (uadd (n_chk OA) a b) (uadd (n_chk OB) a b).
Proof.
  destruct (sm_chk _ _ _ _ S) as [->| ->]; [apply rres_same|]. unfold uadd.
  destruct (_ <=? _)%N; [apply rres_ok; reflexivity|exact I].
Qed.
Lemma sim_usub a b : rr eq (usub (n_chk OA) a b) (usub (n_chk OB) a b).
Proof.
  destruct (sm_chk _ _ _ _ S) as [->| ->]; [apply rres_same|]. unfold usub.
  destruct (_ <=? _)%N; [apply rres_ok; reflexivity|exact I].
Qed.
Lemma sim_umul a b : rr eq (umul (n_chk OA) a b) (umul (n_chk OB) a b).
Proof.
  destruct (sm_chk _ _ _ _ S) as [->| ->]; [apply rres_same|]. unfold umul.
  destruct (_ <=? _)%N; [apply rres_ok; reflexivity|exact I].
Qed.
Lemma sim_neg_i32 k : rr eq (neg_i32 (n_chk OA) k) (neg_i32 (n_chk OB) k).
Proof.
  destruct (sm_chk _ _ _ _ S) as [->| ->]; [apply rres_same|]. unfold neg_i32.
  destruct (_ =? _)%Z; [exact I|apply rres_ok; reflexivity].
Qed.

(** ** lists and vectors *)
Lemma sim_mapM f g : (forall a b, r a b -> rr r (f a) (g b)) -> forall l m, rl l m -> rr rl (mapM f l) (mapM g m).
Proof.
  intros H l m Hl. induction Hl as [|x y l m Hx Hl IH]; simpl; [apply rres_ok; constructor|].
  eapply rres_bind; [apply H, Hx|]. intros a b Hab. eapply rres_bind; [exact IH|]. intros a' b' H'.
  apply rres_ok. constructor; assumption.
Qed.

Lemma sim_zipM {X Y} (q : X -> Y -> Prop) f g :
  (forall a b c d, r a b -> q c d -> rr r (f a c) (g b d)) ->
  forall l m, rl l m -> forall l' m', Forall2 q l' m' -> rr rl (zipM f l l') (zipM g m m').
Proof.
  intros H l m Hl. induction Hl as [|x y l m Hx Hl IH]; intros l' m' Hl'; simpl; [apply rres_ok; constructor|].
  inversion Hl' as [|x' y' l'' m'' Hx' Hl'']; subst; [apply rres_ok; constructor; assumption|].
  eapply rres_bind; [apply H; eassumption|]. intros a b Hab. eapply rres_bind; [apply IH, Hl''|]. intros a' b' H'.
  apply rres_ok. constructor; assumption.
Qed.

Lemma sim_foldM {X Y P Q} (q : X -> Y -> Prop) (p : P -> Q -> Prop) f g :
  (forall a b c d, p a b -> q c d -> rr p (f a c) (g b d)) ->
  forall l m, Forall2 q l m -> forall a b, p a b -> rr p (foldM f a l) (foldM g b m).
Proof.
  intros H l m Hl. induction Hl as [|x y l m Hx Hl IH]; intros a b Hab; simpl; [apply rres_ok, Hab|].
  eapply rres_bind; [apply H; eassumption|]. intros a' b' H'. apply IH, H'.
Qed.

Lemma rl_skipn n a b : rl a b -> rl (skipn n a) (skipn n b).
Proof.
  revert a b. induction n as [|n IH]; intros a b H; simpl; [exact H|].
  destruct H; [constructor|]. apply IH; assumption.
Qed.
Lemma rl_firstn n a b : rl a b -> rl (firstn n a) (firstn n b).
Proof.
  revert a b. induction n as [|n IH]; intros a b H; simpl; [constructor|].
  destruct H; constructor; auto.
Qed.
Lemma rl_repeat n : rl (repeat (zero OA) n) (repeat (zero OB) n).
Proof. induction n; simpl; constructor; [apply (sm_zero _ _ _ _ S)|assumption]. Qed.

Lemma sim_slice_from a b i : rl a b -> rr rl (slice_from a i) (slice_from b i).
Proof.
  intros H. unfold slice_from. rewrite (rl_len _ _ H). destruct (_ <=? _)%nat; [|exact I].
  apply rres_ok, rl_skipn, H.
Qed.
Lemma sim_slice a b i j : rl a b -> rr rl (slice a i j) (slice b i j).
Proof.
  intros H. unfold slice. rewrite (rl_len _ _ H). destruct (_ && _); [|exact I].
  apply rres_ok, rl_firstn, rl_skipn, H.
Qed.
Lemma sim_index a b i : rl a b -> rr r (index a i) (index b i).
Proof.
  intros H. unfold index. rewrite (rl_lenN _ _ H). destruct (_ <? _)%N; [|exact I].
  generalize (N.to_nat i). clear i. induction H as [|x y a b Hx H IH]; intros [|n]; simpl; try exact I; [apply rres_ok, Hx|].
  apply IH.
Qed.
Lemma sim_update a b i f g : (forall x y, r x y -> rr r (f x) (g y)) -> rl a b -> rr rl (update a i f) (update b i g).
Proof.
  intros Hf H. unfold update. rewrite (rl_lenN _ _ H). destruct (_ <? _)%N; [|exact I].
  generalize (N.to_nat i). clear i. induction H as [|x y a b Hx H IH]; intros [|n]; simpl; try exact I.
  - eapply rres_bind; [apply Hf, Hx|]. intros u v Huv. apply rres_ok. constructor; assumption.
  - eapply rres_bind; [apply IH|]. intros u v Huv. apply rres_ok. constructor; assumption.
Qed.
Lemma sim_vec_repeat n : rr rl (vec_repeat (n_max_len OA) (zero OA) n) (vec_repeat (n_max_len OB) (zero OB) n).
Proof.
  unfold vec_repeat. destruct (N.leb_spec n (n_max_len OA)) as [H|H]; [|exact I].
  destruct (N.leb_spec n (n_max_len OB)) as [K|K]; [apply rres_ok, rl_repeat|].
  right. destruct (sm_cap _ _ _ _ S) as [C|C]; [auto|lia].
Qed.
Lemma sim_vec_grow a b n : rl a b -> rr eq (vec_grow (n_max_len OA) a n) (vec_grow (n_max_len OB) b n).
Proof.
  intros H. unfold vec_grow. rewrite (rl_lenN _ _ H). destruct (N.leb_spec (len b + n) (n_max_len OA)) as [K|K]; [|exact I].
  destruct (N.leb_spec (len b + n) (n_max_len OB)) as [K'|K']; [apply rres_ok; reflexivity|].
  right. destruct (sm_cap _ _ _ _ S) as [C|C]; [auto|lia].
Qed.
Lemma sim_expect_cont n : (n <= USIZE_MAX)%N -> rr r (expect (of_cont OA n)) (expect (of_cont OB n)).
Proof.
  intros Hn. destruct (of_cont OA n) as [a|] eqn:E; [|exact I].
  destruct (sm_cont _ _ _ _ S n a Hn E) as (b & -> & H). apply rres_ok, H.
Qed.
Lemma sim_expect_exact n : (n <= USIZE_MAX)%N -> rr r (expect (of_exact OA n)) (expect (of_exact OB n)).
Proof.
  intros Hn. destruct (of_exact OA n) as [a|] eqn:E; [|exact I].
  destruct (sm_exact _ _ _ _ S n a Hn E) as (b & -> & H). apply rres_ok, H.
Qed.

(** ** terms and dense polynomials *)
Ltac rz := repeat match goal with
  | H : r ?x ?y |- context [is_zero OA ?x] => rewrite (sm_is_zero _ _ _ _ S x y H)
  | H : r ?x ?y |- context [is_pos OA ?x] => rewrite (sm_is_pos _ _ _ _ S x y H)
  | H : r ?x ?y |- context [is_neg_one OA ?x] => rewrite (sm_neg_one _ _ _ _ S x y H)
  end.

Lemma sim_term_new x y d : r x y -> tmr (term_new OA x d) (term_new OB y d).
Proof. intros H. unfold term_new. rz. destruct (is_zero OB y); simpl; auto. Qed.

Lemma sim_enum_terms deg l m : rl l m -> forall i, rr (Forall2 tr) (enum_terms OA deg i l) (enum_terms OB deg i m).
Proof.
  induction 1 as [|x y l m Hx Hl IH]; intros i; simpl; [apply rres_ok; constructor|]. rz.
  destruct (is_zero OB y); [apply IH|]. apply rres_bind_eq; [apply sim_usub|]. intros d.
  eapply rres_bind; [apply IH|]. intros a b H. apply rres_ok. constructor; [split; [exact Hx|reflexivity]|exact H].
Qed.

Lemma sim_fnz_rem l m : rl l m -> forall base, fnz_rem OA l base = fnz_rem OB m base.
Proof. induction 1 as [|x y l m Hx Hl IH]; intros base; simpl; [reflexivity|]. rz. rewrite IH. reflexivity. Qed.
Lemma sim_fnz_chunks n : forall l m, rl l m -> length l <= n -> forall base, fnz_chunks OA l base = fnz_chunks OB m base.
Proof.
  induction n as [n IH] using (well_founded_induction Wf_nat.lt_wf). intros l m H Hn base.
  destruct H as [|x1 y1 l m H1 H]; [reflexivity|]. destruct H as [|x2 y2 l m H2 H]; [apply (sim_fnz_rem [x1] [y1]); auto|].
  destruct H as [|x3 y3 l m H3 H]; [apply (sim_fnz_rem [x1; x2] [y1; y2]); auto|].
  destruct H as [|x4 y4 l m H4 H]; [apply (sim_fnz_rem [x1; x2; x3] [y1; y2; y3]); auto|].
  cbn [fnz_chunks]. rz. cbn [length] in Hn. rewrite (IH (length l)) with (m := m); [reflexivity|lia|exact H|lia].
Qed.
Lemma sim_fnz l m : rl l m -> first_nonzero_index OA l = first_nonzero_index OB m.
Proof. intros H. eapply sim_fnz_chunks; [exact H|apply le_n]. Qed.

Lemma sim_ft_rem n l m : rl l m -> forall idx, tmr (ft_rem OA n l idx) (ft_rem OB n m idx).
Proof.
  induction 1 as [|x y l m Hx Hl IH]; intros idx; simpl; [exact I|]. rz.
  destruct (is_zero OB y); simpl; auto.
Qed.
Lemma sim_ft_chunks n k : forall l m, rl l m -> length l <= k -> forall base, tmr (ft_chunks OA n l base) (ft_chunks OB n m base).
Proof.
  induction k as [k IH] using (well_founded_induction Wf_nat.lt_wf). intros l m H Hn base.
  destruct H as [|x1 y1 l m H1 H]; [exact I|]. destruct H as [|x2 y2 l m H2 H]; [apply (sim_ft_rem n [x1] [y1]); auto|].
  destruct H as [|x3 y3 l m H3 H]; [apply (sim_ft_rem n [x1; x2] [y1; y2]); auto|].
  destruct H as [|x4 y4 l m H4 H]; [apply (sim_ft_rem n [x1; x2; x3] [y1; y2; y3]); auto|].
  cbn [ft_chunks]. rz. cbn [length] in Hn.
  destruct (is_zero OB y1); [|split; auto]. destruct (is_zero OB y2); [|split; auto].
  destruct (is_zero OB y3); [|split; auto]. destruct (is_zero OB y4); [|split; auto]. cbn [negb].
  apply (IH (length l)); [lia|exact H|lia].
Qed.
Lemma sim_first_term l m : rl l m -> tmr (first_term OA l) (first_term OB m).
Proof. intros H. unfold first_term. rewrite (rl_lenN _ _ H). eapply sim_ft_chunks; [exact H|apply le_n]. Qed.

Lemma sim_degree l m : rl l m -> dense_degree OA l = dense_degree OB m.
Proof. intros H. unfold dense_degree. rewrite (sim_fnz _ _ H), (rl_len _ _ H), (rl_lenN _ _ H). reflexivity. Qed.

Lemma sim_term_with_deg l m d : rl l m -> rr tmr (term_with_deg OA l d) (term_with_deg OB m d).
Proof.
  intros H. unfold term_with_deg. rewrite (rl_lenN _ _ H). destruct (_ <? _)%N; [|apply rres_ok; exact I].
  apply rres_bind_eq; [apply sim_usub|]. intros i1. apply rres_bind_eq; [apply sim_usub|]. intros i.
  eapply rres_bind; [apply sim_index, H|]. intros a b Hab. apply rres_ok, sim_term_new, Hab.
Qed.

Lemma sim_dense_new l m : rl l m -> rr rl (dense_new OA l) (dense_new OB m).
Proof.
  intros H. unfold dense_new, dense_trim. rewrite (sim_fnz _ _ H). destruct (_ =? _)%nat; [apply rres_ok, H|].
  apply sim_slice_from, H.
Qed.

Lemma sim_dense_terms l m : rl l m -> rr (Forall2 tr) (dense_terms OA l) (dense_terms OB m).
Proof.
  intros H. unfold dense_terms. rewrite (sim_fnz _ _ H). eapply rres_bind; [apply sim_slice_from, H|].
  intros a b Hab. rewrite (rl_lenN _ _ Hab). apply sim_enum_terms, Hab.
Qed.

Lemma sim_dense_add_term l m c c' d : rl l m -> r c c' -> rr rl (dense_add_term OA l c d) (dense_add_term OB m c' d).
Proof.
  intros H Hc. unfold dense_add_term. apply rres_bind_eq; [apply sim_uadd|]. intros d1.
  eapply (rres_bind cap rl).
  - rewrite (rl_lenN _ _ H). destruct (_ <? _)%N; [|apply rres_ok, H].
    apply rres_bind_eq; [apply sim_usub|]. intros k. apply rres_bind_eq; [apply sim_vec_grow, H|]. intros _.
    apply rres_ok, Forall2_app; [apply rl_repeat|exact H].
  - intros a b Hab. rewrite (rl_lenN _ _ Hab).
    apply rres_bind_eq; [apply sim_usub|]. intros i1. apply rres_bind_eq; [apply sim_usub|]. intros i.
    apply sim_update; [|exact Hab]. intros x y Hxy. apply (sm_add _ _ _ _ S); assumption.
Qed.
Lemma sim_dense_try_add_term l m c c' d : rl l m -> r c c' ->
  rr (mut_rel rl) (dense_try_add_term OA l c d) (dense_try_add_term OB m c' d).
Proof.
  intros H Hc. unfold dense_try_add_term. eapply rres_bind; [apply sim_dense_add_term; eassumption|].
  intros a b Hab. apply rres_ok. split; [exact Hab|reflexivity].
Qed.
Lemma sim_dense_try_sub_term l m c c' d : can_negate OA = can_negate OB -> rl l m -> r c c' ->
  rr (mut_rel rl) (dense_try_sub_term OA l c d) (dense_try_sub_term OB m c' d).
Proof.
  intros Hn H Hc. unfold dense_try_sub_term. apply rres_bind_eq; [apply sim_uadd|]. intros d1.
  rewrite Hn, (rl_lenN _ _ H). destruct (_ && _); [apply rres_ok; split; [exact H|reflexivity]|].
  eapply (rres_bind cap rl).
  - destruct (_ <? _)%N; [|apply rres_ok, H].
    apply rres_bind_eq; [apply sim_usub|]. intros k. apply rres_bind_eq; [apply sim_vec_grow, H|]. intros _.
    apply rres_ok, Forall2_app; [apply rl_repeat|exact H].
  - intros a b Hab. rewrite (rl_lenN _ _ Hab).
    apply rres_bind_eq; [apply sim_usub|]. intros i1. apply rres_bind_eq; [apply sim_usub|]. intros i.
    eapply rres_bind; [apply sim_update; [|exact Hab]|].
    + intros x y Hxy. apply (sm_sub _ _ _ _ S); eassumption.
    + intros u v Huv. apply rres_ok. split; [exact Huv|reflexivity].
Qed.
Lemma sim_dense_from_terms ts ts' : Forall2 tr ts ts' -> rr rl (dense_from_terms OA ts) (dense_from_terms OB ts').
Proof.
  intros H. unfold dense_from_terms. eapply (sim_foldM tr rl); [|exact H|constructor].
  intros a b c d Hab (H1 & H2). rewrite H2. apply sim_dense_add_term; assumption.
Qed.

Lemma sim_split_last l m : rl l m ->
  match split_last l, split_last m with
  | None, None => True | Some (x, f), Some (y, g) => r x y /\ rl f g | _, _ => False end.
Proof.
  induction 1 as [|x y l m Hx Hl IH]; simpl; [exact I|].
  destruct (split_last l) as [[u f]|], (split_last m) as [[v g]|]; try contradiction.
  - destruct IH. split; [assumption|constructor; assumption].
  - split; [exact Hx|constructor].
Qed.

Lemma sim_dense_eval l m p q : rl l m -> r p q -> rr r (dense_eval OA l p) (dense_eval OB m q).
Proof.
  intros H Hp. unfold dense_eval. pose proof (sim_split_last _ _ H) as K.
  destruct (split_last l) as [[x f]|], (split_last m) as [[y g]|]; try contradiction.
  - destruct K as [K1 K2]. rz. destruct (is_zero OB q); [apply rres_ok, K1|].
    eapply (rres_bind cap r).
    + unfold horner. eapply (sim_foldM r r); [|exact K2|apply (sm_zero _ _ _ _ S)].
      intros a b c d Hab Hcd. eapply rres_bind; [apply (sm_add _ _ _ _ S); eassumption|].
      intros u v Huv. apply (sm_mul _ _ _ _ S); assumption.
    + intros a b Hab. apply (sm_add _ _ _ _ S); assumption.
  - apply rres_ok, (sm_zero _ _ _ _ S).
Qed.

Lemma sim_deriv_loop l m : rl l m -> forall d e, r d e -> rr rl (deriv_loop OA d l) (deriv_loop OB e m).
Proof.
  induction 1 as [|x y l m Hx Hl IH]; intros d e Hd; simpl; [apply rres_ok; constructor|].
  eapply rres_bind; [apply (sm_sub _ _ _ _ S); [exact Hd|apply (sm_one _ _ _ _ S)]|]. intros d' e' Hd'.
  eapply rres_bind; [apply (sm_mul _ _ _ _ S); eassumption|]. intros a b Hab.
  eapply rres_bind; [apply IH, Hd'|]. intros u v Huv. apply rres_ok. constructor; assumption.
Qed.
Lemma sim_dense_derivative l m : (len l <= USIZE_MAX)%N -> rl l m -> rr rl (dense_derivative OA l) (dense_derivative OB m).
Proof.
  intros Hn H. unfold dense_derivative. rewrite (sim_fnz _ _ H). rewrite (rl_lenN _ _ H) in Hn |- *.
  set (i := first_nonzero_index OB m). destruct (N.leb_spec (N.of_nat i) (len m)) as [Hi|Hi].
  - rewrite !usub_le by exact Hi. cbn [bind]. eapply rres_bind; [apply sim_expect_cont; lia|]. intros d e Hd.
    eapply rres_bind; [apply sim_slice_from, H|]. intros a b Hab. pose proof (sim_split_last _ _ Hab) as K.
    destruct (split_last a) as [[x f]|], (split_last b) as [[y g]|]; try contradiction; [|apply rres_ok; constructor].
    apply sim_deriv_loop; [apply K|exact Hd].
  - apply rres_bind_eq; [apply sim_usub|]. intros k. destruct (of_cont OA k) as [u|]; [|exact I]. cbn [expect bind].
    unfold slice_from. destruct (Nat.leb_spec i (length l)) as [K|K]; [|exact I].
    rewrite (rl_len _ _ H) in K. unfold len in Hi. lia.
Qed.

Lemma sim_mul_row c c' l m : r c c' -> rl l m -> forall a b, rl a b -> rr rl (mul_row OA c l a) (mul_row OB c' m b).
Proof.
  intros Hc H a b Hab. unfold mul_row. eapply (sim_zipM r); [|exact Hab|exact H]. intros x y u v Hxy Huv.
  eapply rres_bind; [apply (sm_mul _ _ _ _ S); eassumption|]. intros p q Hpq. apply (sm_add _ _ _ _ S); assumption.
Qed.
Lemma sim_mul_rows l m : rl l m -> forall rhs rhs', rl rhs rhs' -> forall i a b, rl a b ->
  rr rl (mul_rows OA i rhs l a) (mul_rows OB i rhs' m b).
Proof.
  intros H rhs rhs' Hr. induction Hr as [|x y rhs rhs' Hx Hr IH]; intros i a b Hab; cbn [mul_rows]; [apply rres_ok, Hab|].
  rz. destruct (is_zero OB y); [apply IH, Hab|]. eapply rres_bind; [apply sim_slice_from, Hab|]. intros u v Huv.
  eapply rres_bind; [apply sim_mul_row; eassumption|]. intros p q Hpq. apply IH, Forall2_app; [apply rl_firstn, Hab|exact Hpq].
Qed.
Lemma sim_dense_mul l m l' m' : rl l m -> rl l' m' -> rr rl (dense_mul OA l l') (dense_mul OB m m').
Proof.
  intros H H'. unfold dense_mul, slice_mul. rewrite (sim_fnz _ _ H), (sim_fnz _ _ H').
  eapply rres_bind; [apply sim_slice_from, H'|]. intros a b Hab. eapply rres_bind; [apply sim_slice_from, H|]. intros c d Hcd.
  rewrite (rl_lenN _ _ Hab), (rl_lenN _ _ Hcd). apply rres_bind_eq; [apply sim_uadd|]. intros s.
  apply rres_bind_eq; [apply sim_usub|]. intros n. eapply rres_bind; [apply sim_vec_repeat|]. intros u v Huv.
  apply sim_mul_rows; assumption.
Qed.
Lemma sim_dense_mul_ref l m l' m' : rl l m -> rl l' m' -> rr rl (dense_mul_ref OA l l') (dense_mul_ref OB m m').
Proof.
  intros H H'. unfold dense_mul_ref. eapply rres_bind; [apply sim_dense_mul; eassumption|].
  intros a b Hab. apply sim_dense_new, Hab.
Qed.
Lemma sim_dense_pow f : forall l m e, rl l m -> rr rl (dense_pow OA f l e) (dense_pow OB f m e).
Proof.
  induction f as [|f IH]; intros l m e H; simpl; [exact I|].
  destruct (e =? 0)%N; [apply rres_ok; constructor; [apply (sm_one _ _ _ _ S)|constructor]|].
  destruct (e =? 1)%N; [apply sim_dense_new, H|]. destruct (e =? 2)%N; [apply sim_dense_mul_ref; exact H|].
  destruct (_ =? _)%N; (eapply rres_bind; [apply IH, H|]); intros a b Hab; [apply IH, Hab|apply sim_dense_mul_ref; assumption].
Qed.

Lemma sim_zip_suffix f g a b i c d : (forall x y u v, r x y -> r u v -> rr r (f x u) (g y v)) ->
  rl a b -> rl c d -> rr rl (zip_suffix f a i c) (zip_suffix g b i d).
Proof.
  intros Hf H H'. unfold zip_suffix. eapply rres_bind; [apply sim_slice_from, H|]. intros u v Huv.
  eapply rres_bind; [eapply (sim_zipM r); [exact Hf|exact Huv|exact H']|]. intros p q Hpq.
  apply rres_ok, Forall2_app; [apply rl_firstn, H|exact Hpq].
Qed.
Lemma sim_dense_sub_assign a b c d : rl a b -> rl c d -> rr rl (dense_sub_assign OA a c) (dense_sub_assign OB b d).
Proof.
  intros H H'. unfold dense_sub_assign. rewrite (rl_len _ _ H), (rl_len _ _ H'). destruct (_ <? _)%nat.
  - eapply rres_bind; [apply sim_mapM; [apply (sm_neg _ _ _ _ S)|apply rl_firstn, H']|]. intros u v Huv.
    eapply rres_bind; [eapply (sim_zipM r); [|apply rl_skipn, H'|exact H]|].
    + intros x y p q Hxy Hpq. apply (sm_sub _ _ _ _ S); assumption.
    + intros p q Hpq. apply rres_ok, Forall2_app; assumption.
  - apply sim_zip_suffix; [|exact H|exact H']. intros; apply (sm_sub _ _ _ _ S); assumption.
Qed.
Lemma sim_dense_sub_assign_ref a b c d : rl a b -> rl c d -> rr rl (dense_sub_assign_ref OA a c) (dense_sub_assign_ref OB b d).
Proof.
  intros H H'. unfold dense_sub_assign_ref. rewrite (rl_len _ _ H), (rl_len _ _ H'). destruct (_ <? _)%nat.
  - eapply rres_bind; [eapply (sim_zipM r); [|exact H|apply rl_skipn, H']|].
    + intros x y p q Hxy Hpq. apply (sm_sub _ _ _ _ S); assumption.
    + intros u v Huv. eapply rres_bind; [apply sim_mapM; [apply (sm_neg _ _ _ _ S)|apply rl_firstn, H']|]. intros p q Hpq.
      apply rres_ok, Forall2_app; assumption.
  - apply sim_zip_suffix; [|exact H|exact H']. intros; apply (sm_sub _ _ _ _ S); assumption.
Qed.
Lemma sim_dense_add_assign a b c d : rl a b -> rl c d -> rr rl (dense_add_assign OA a c) (dense_add_assign OB b d).
Proof.
  intros H H'. unfold dense_add_assign. rewrite (rl_len _ _ H), (rl_len _ _ H').
  destruct (_ <? _)%nat; (apply sim_zip_suffix; [|assumption..]); intros; apply (sm_add _ _ _ _ S); assumption.
Qed.
Lemma sim_dense_add a b c d : rl a b -> rl c d -> rr rl (dense_add OA a c) (dense_add OB b d).
Proof.
  intros H H'. unfold dense_add. rewrite (rl_len _ _ H), (rl_len _ _ H').
  destruct (_ <? _)%nat; rewrite ?(rl_len _ _ H), ?(rl_len _ _ H');
    (eapply rres_bind; [apply sim_zip_suffix; [|eassumption..]; intros; apply (sm_add _ _ _ _ S); assumption|]);
    intros u v Huv; apply sim_dense_new, Huv.
Qed.
Lemma sim_dense_neg a b : rl a b -> rr rl (dense_neg OA a) (dense_neg OB b).
Proof. intros H. apply sim_mapM; [apply (sm_neg _ _ _ _ S)|exact H]. Qed.
Lemma sim_dense_scale a b c d : rl a b -> r c d -> rr rl (dense_scale OA a c) (dense_scale OB b d).
Proof.
  intros H H'. unfold dense_scale. eapply rres_bind; [apply sim_mapM; [|exact H]|].
  - intros x y Hxy. apply (sm_mul _ _ _ _ S); eassumption.
  - intros u v Huv. apply sim_dense_new, Huv.
Qed.
Lemma sim_dense_scale_assign a b c d : rl a b -> r c d -> rr rl (dense_scale_assign OA a c) (dense_scale_assign OB b d).
Proof. intros H H'. apply sim_mapM; [|exact H]. intros x y Hxy. apply (sm_mul _ _ _ _ S); eassumption. Qed.

Lemma sim_extend_zeros a b k : rl a b -> rr rl (extend_zeros OA a k) (extend_zeros OB b k).
Proof.
  intros H. unfold extend_zeros. eapply rres_bind; [apply sim_vec_repeat|]. intros u v Huv.
  apply rres_bind_eq; [apply sim_vec_grow, H|]. intros _. apply rres_ok, Forall2_app; assumption.
Qed.
Lemma sim_dense_shift f : forall left a b k, rl a b -> rr rl (dense_shift OA f left a k) (dense_shift OB f left b k).
Proof.
  induction f as [|f IH]; intros left a b k H; simpl; [exact I|].
  destruct (k <? 0)%Z; [apply rres_bind_eq; [apply sim_neg_i32|]; intros k'; apply IH, H|].
  rewrite (sim_fnz _ _ H), (rl_len _ _ H), (rl_lenN _ _ H). destruct left.
  - eapply rres_bind; [apply sim_slice_from, H|]. intros u v Huv. apply sim_extend_zeros, Huv.
  - destruct (_ <? _)%N; [apply rres_ok; constructor|]. apply sim_slice, H.
Qed.
Lemma sim_dense_shift_assign f : forall left a b k, rl a b ->
  rr rl (dense_shift_assign OA f left a k) (dense_shift_assign OB f left b k).
Proof.
  induction f as [|f IH]; intros left a b k H; simpl; [exact I|].
  destruct (k <? 0)%Z; [apply rres_bind_eq; [apply sim_neg_i32|]; intros k'; apply IH, H|].
  rewrite (rl_len _ _ H), (rl_lenN _ _ H). destruct left; [apply sim_extend_zeros, H|].
  destruct (_ <? _)%N; [apply rres_ok; constructor|]. apply sim_slice, H.
Qed.

Lemma sim_terms_eqb a b c d : Forall2 tr a b -> Forall2 tr c d -> terms_eqb OA a c = terms_eqb OB b d.
Proof.
  intros H. revert c d. induction H as [|[x n] [y n'] a b [H1 H2] H IH]; intros c d H'; destruct H' as [|[x' k] [y' k'] c d [H1' H2'] H']; try reflexivity.
  simpl in *. subst. rewrite (IH _ _ H'), (sm_eqb _ _ _ _ S x y x' y' H1 H1'). reflexivity.
Qed.
Lemma sim_dense_eq a b c d : rl a b -> rl c d -> rr eq (dense_eq OA a c) (dense_eq OB b d).
Proof.
  intros H H'. unfold dense_eq. eapply rres_bind; [apply sim_dense_terms, H|]. intros u v Huv.
  eapply rres_bind; [apply sim_dense_terms, H'|]. intros p q Hpq. apply rres_ok, sim_terms_eqb; assumption.
Qed.

(** Division. *)
Section Div.
Hypothesis D : sim_div OA OB r cap.

Lemma sim_integ_loop l m : rl l m -> forall d e, r d e -> rr rl (integ_loop OA d l) (integ_loop OB e m).
Proof.
  induction 1 as [|x y l m Hx Hl IH]; intros d e Hd; simpl; [apply rres_ok; constructor|].
  eapply rres_bind; [apply D; eassumption|]. intros a b Hab.
  eapply rres_bind; [apply (sm_sub _ _ _ _ S); [exact Hd|apply (sm_one _ _ _ _ S)]|]. intros d' e' Hd'.
  eapply rres_bind; [apply IH, Hd'|]. intros u v Huv. apply rres_ok. constructor; assumption.
Qed.
Lemma sim_dense_integral l m : (len l <= USIZE_MAX)%N -> rl l m -> rr rl (dense_integral OA l) (dense_integral OB m).
Proof.
  intros Hn H. unfold dense_integral. rewrite (sim_fnz _ _ H). rewrite (rl_lenN _ _ H) in Hn |- *.
  set (i := first_nonzero_index OB m). destruct (N.leb_spec (N.of_nat i) (len m)) as [Hi|Hi].
  - rewrite !usub_le by exact Hi. cbn [bind]. eapply rres_bind; [apply sim_expect_cont; lia|]. intros d e Hd.
    eapply rres_bind; [apply sim_slice_from, H|]. intros a b Hab.
    eapply rres_bind; [apply sim_integ_loop; eassumption|]. intros u v Huv.
    apply rres_bind_eq; [apply sim_vec_grow, Huv|]. intros _. apply rres_ok, Forall2_app; [exact Huv|].
    constructor; [apply (sm_zero _ _ _ _ S)|constructor].
  - apply rres_bind_eq; [apply sim_usub|]. intros k. destruct (of_cont OA k) as [u|]; [|exact I]. cbn [expect bind].
    unfold slice_from. destruct (Nat.leb_spec i (length l)) as [K|K]; [|exact I].
    rewrite (rl_len _ _ H) in K. unfold len in Hi. lia.
Qed.
Lemma sim_dense_div_scalar a b c d : rl a b -> r c d -> rr rl (dense_div_scalar OA a c) (dense_div_scalar OB b d).
Proof.
  intros H H'. unfold dense_div_scalar. eapply rres_bind; [apply sim_mapM; [|exact H]|].
  - intros x y Hxy. apply D; eassumption.
  - intros u v Huv. apply sim_dense_new, Huv.
Qed.
Lemma sim_dense_div_scalar_assign a b c d : rl a b -> r c d ->
  rr rl (dense_div_scalar_assign OA a c) (dense_div_scalar_assign OB b d).
Proof. intros H H'. apply sim_mapM; [|exact H]. intros x y Hxy. apply D; eassumption. Qed.

Lemma sim_vec_sub_w_scale a b n c d k x y : rl a b -> rl c d -> r x y ->
  rr rl (vec_sub_w_scale OA a n c k x) (vec_sub_w_scale OB b n d k y).
Proof.
  intros H H' Hx. unfold vec_sub_w_scale. rewrite (rl_lenN _ _ H), (rl_lenN _ _ H').
  do 4 (apply rres_bind_eq; [apply sim_usub|]; intros ?). destruct (_ && _); [|exact I].
  eapply rres_bind; [apply sim_slice_from, H|]. intros u v Huv. eapply rres_bind; [apply sim_slice_from, H'|]. intros p q Hpq.
  eapply rres_bind; [eapply (sim_zipM r); [|exact Huv|exact Hpq]|].
  - intros x1 y1 x2 y2 H1 H2. eapply rres_bind; [apply (sm_mul _ _ _ _ S); eassumption|]. intros x3 y3 H3.
    apply (sm_sub _ _ _ _ S); assumption.
  - intros x3 y3 H3. apply rres_ok, Forall2_app; [apply rl_firstn, H|exact H3].
Qed.

Definition pair_rel {X Y} (R : X -> Y -> Prop) (x : X * X) (y : Y * Y) : Prop := R (fst x) (fst y) /\ R (snd x) (snd y).

Lemma sim_div_loop f : forall rhs rhs' a b deg off c c' sd rem rem' dv dv',
  rl rhs rhs' -> r a b -> r c c' -> rl rem rem' -> rl dv dv' ->
  rr (pair_rel rl) (div_loop OA f rhs a deg off c sd rem dv) (div_loop OB f rhs' b deg off c' sd rem' dv').
Proof.
  induction f as [|f IH]; intros rhs rhs' a b deg off c c' sd rem rem' dv dv' H1 H2 H3 H4 H5; simpl; [exact I|].
  destruct (_ <=? _)%N; [|apply rres_ok; split; assumption].
  eapply rres_bind; [apply D; eassumption|]. intros s s' Hs.
  eapply rres_bind; [apply sim_vec_sub_w_scale; eassumption|]. intros u v Huv.
  apply rres_bind_eq; [apply sim_usub|]. intros i.
  eapply rres_bind; [apply sim_update; [|exact H5]|].
  - intros _ _ _. apply rres_ok, Hs.
  - intros p q Hpq. pose proof (sim_first_term _ _ Huv) as K.
    destruct (first_term OA u), (first_term OB v); simpl in K; try contradiction; [apply rres_ok; split; assumption|].
    destruct K as [K1 <-]. apply IH; assumption.
Qed.
Lemma sim_dense_div_mod f a b c d : rl a b -> rl c d -> rr (pair_rel rl) (dense_div_mod OA f a c) (dense_div_mod OB f b d).
Proof.
  intros H H'. unfold dense_div_mod. pose proof (sim_first_term _ _ H) as K. pose proof (sim_first_term _ _ H') as K'.
  destruct (first_term OA c), (first_term OB d); simpl in K'; try contradiction; [exact I|]. destruct K' as [K1' <-].
  destruct (first_term OA a), (first_term OB b); simpl in K; try contradiction;
    [apply rres_ok; split; [constructor|exact H]|]. destruct K as [K1 <-].
  destruct (_ <? _)%N; [apply rres_ok; split; [constructor|exact H]|].
  apply rres_bind_eq; [apply sim_usub|]. intros n1. apply rres_bind_eq; [apply sim_uadd|]. intros n.
  eapply rres_bind; [apply sim_vec_repeat|]. intros u v Huv.
  eapply rres_bind; [apply sim_div_loop; eassumption|]. intros [p q] [p' q'] [Hp Hq].
  eapply rres_bind; [apply sim_dense_new, Hp|]. intros x y Hxy. eapply rres_bind; [apply sim_dense_new, Hq|].
  intros x' y' Hxy'. apply rres_ok. split; assumption.
Qed.
Lemma sim_rem_assign_loop f : forall rhs rhs' a b deg c c' sd p p',
  rl rhs rhs' -> r a b -> r c c' -> rl p p' ->
  rr rl (rem_assign_loop OA f rhs a deg c sd p) (rem_assign_loop OB f rhs' b deg c' sd p').
Proof.
  induction f as [|f IH]; intros rhs rhs' a b deg c c' sd p p' H1 H2 H3 H4; simpl; [exact I|].
  destruct (_ <=? _)%N; [|apply rres_ok, H4].
  eapply rres_bind; [apply sim_vec_sub_w_scale; eassumption|]. intros u v Huv. pose proof (sim_first_term _ _ Huv) as K.
  destruct (first_term OA u), (first_term OB v); simpl in K; try contradiction; [apply rres_ok, Huv|].
  destruct K as [K1 <-]. eapply rres_bind; [apply D; eassumption|]. intros s s' Hs. apply IH; assumption.
Qed.
Lemma sim_dense_floor_div f a b c d : rl a b -> rl c d -> rr rl (dense_floor_div OA f a c) (dense_floor_div OB f b d).
Proof.
  intros H H'. unfold dense_floor_div. eapply rres_bind; [apply sim_dense_div_mod; eassumption|].
  intros x y [Hx _]. apply rres_ok, Hx.
Qed.
Lemma sim_rem_loop f : forall q q' rhs rhs' a b deg c c' sd p p',
  rl q q' -> rl rhs rhs' -> r a b -> r c c' -> rl p p' ->
  rr rl (rem_loop OA f q rhs a deg c sd p) (rem_loop OB f q' rhs' b deg c' sd p').
Proof.
  induction f as [|f IH]; intros q q' rhs rhs' a b deg c c' sd p p' H0 H1 H2 H3 H4; simpl; [exact I|].
  destruct (_ <=? _)%N; [|apply rres_ok, H4].
  eapply rres_bind; [apply sim_vec_sub_w_scale; eassumption|]. intros u v Huv. pose proof (sim_first_term _ _ H0) as K.
  destruct (first_term OA q), (first_term OB q'); simpl in K; try contradiction; [apply rres_ok, Huv|].
  destruct K as [K1 <-]. eapply rres_bind; [apply D; eassumption|]. intros s s' Hs. apply IH; assumption.
Qed.
Lemma sim_dense_rem f a b c d : rl a b -> rl c d -> rr rl (dense_rem OA f a c) (dense_rem OB f b d).
Proof.
  intros H H'. unfold dense_rem. pose proof (sim_first_term _ _ H) as K. pose proof (sim_first_term _ _ H') as K'.
  destruct (first_term OA c), (first_term OB d); simpl in K'; try contradiction; [exact I|]. destruct K' as [K1' <-].
  destruct (first_term OA a), (first_term OB b); simpl in K; try contradiction; [apply rres_ok, H|]. destruct K as [K1 <-].
  destruct (_ <? _)%N; [apply rres_ok, H|].
  eapply rres_bind; [apply D; eassumption|]. intros s s' Hs.
  eapply rres_bind; [apply sim_rem_loop; eassumption|]. intros u v Huv. apply sim_dense_new, Huv.
Qed.
Lemma sim_dense_rem_assign f a b c d : rl a b -> rl c d -> rr rl (dense_rem_assign OA f a c) (dense_rem_assign OB f b d).
Proof.
  intros H H'. unfold dense_rem_assign. pose proof (sim_first_term _ _ H) as K. pose proof (sim_first_term _ _ H') as K'.
  destruct (first_term OA c), (first_term OB d); simpl in K'; try contradiction; [exact I|]. destruct K' as [K1' <-].
  destruct (first_term OA a), (first_term OB b); simpl in K; try contradiction; [apply rres_ok, H|]. destruct K as [K1 <-].
  destruct (_ <? _)%N; [apply rres_ok, H|].
  eapply rres_bind; [apply D; eassumption|]. intros s s' Hs. apply sim_rem_assign_loop; assumption.
Qed.
End Div.
End Sim.
