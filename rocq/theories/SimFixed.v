(** Monomial, LinearBinomial, QuadraticTrinomial, ArrayPolynomial and Integral over corresponding
    coefficient types (see Sim.v). *)

From Coq Require Import List NArith ZArith Lia Bool Arith.
From Coq Require Import ZifyBool ZifyNat ZifyN.
From Verif Require Import Base Num Terms Dense Sparse Mono Bino Trino ArrPoly Strs Integr Sim SimSparse.
Import ListNotations.

Definition mono_rel {A B} (r : A -> B -> Prop) (x : mono A) (y : mono B) : Prop := r (mcoef x) (mcoef y) /\ mdeg x = mdeg y.
Definition bino_rel {A B} (r : A -> B -> Prop) (x : bino A) (y : bino B) : Prop := r (bc0 x) (bc0 y) /\ r (bc1 x) (bc1 y).
Definition trino_rel {A B} (r : A -> B -> Prop) (x : trino A) (y : trino B) : Prop :=
  r (tc0 x) (tc0 y) /\ r (tc1 x) (tc1 y) /\ r (tc2 x) (tc2 y).

Section Sim.
Context {A B : Type} (OA : num A) (OB : num B) (r : A -> B -> Prop) (cap : bool).
Hypothesis S : sim OA OB r cap.
Notation rr := (rres cap).
Notation rl := (Forall2 r).
Notation tr := (term_rel r).
Notation tmr := (Term_rel r).
Notation ml := (Forall2 (entry_rel r)).
Notation mr := (mono_rel r).
Notation br := (bino_rel r).
Notation qr := (trino_rel r).

Ltac rz := repeat match goal with
  | H : r ?x ?y |- context [is_zero OA ?x] => rewrite (sm_is_zero _ _ _ _ S x y H)
  end.

(** ** Monomial *)
Lemma sim_mono_terms m n : mr m n -> Forall2 tr (mono_terms OA m) (mono_terms OB n).
Proof.
  intros [H1 H2]. unfold mono_terms. rz. destruct (is_zero OB _); constructor; [|constructor]. split; assumption.
Qed.
Lemma sim_mono_as_term m n : mr m n -> tmr (mono_as_term OA m) (mono_as_term OB n).
Proof. intros [H1 H2]. unfold mono_as_term. rewrite H2. eapply sim_term_new; eassumption. Qed.
Lemma sim_mono_term_with_degree m n d : mr m n -> tmr (mono_term_with_degree OA m d) (mono_term_with_degree OB n d).
Proof.
  intros [H1 H2]. unfold mono_term_with_degree. rewrite H2. destruct (_ =? _)%N; [|exact I]. eapply sim_term_new; eassumption.
Qed.
Lemma sim_mono_degree m n : mr m n -> mono_degree OA m = mono_degree OB n.
Proof. intros [H1 H2]. unfold mono_degree. rz. rewrite H2. reflexivity. Qed.
Lemma sim_mono_zero : mr (mono_zero OA) (mono_zero OB).
Proof. split; [apply (sm_zero _ _ _ _ S)|reflexivity]. Qed.
Lemma sim_mono_try (f : A -> A -> res A) (g : B -> B -> res B) m n (c : A) (c' : B) d : (forall x y, r x y -> rr r (f x c) (g y c')) -> mr m n ->
  rr (mut_rel mr)
   (if mono_is_zero OA m then x <- f (mcoef m) c ;; Ok (MkMono x d, None)
    else if (d =? mdeg m)%N then x <- f (mcoef m) c ;; Ok (MkMono x (mdeg m), None) else Ok (m, Some TooManyTerms))
   (if mono_is_zero OB n then x <- g (mcoef n) c' ;; Ok (MkMono x d, None)
    else if (d =? mdeg n)%N then x <- g (mcoef n) c' ;; Ok (MkMono x (mdeg n), None) else Ok (n, Some TooManyTerms)).
Proof.
  intros Hf H. unfold mono_is_zero. rewrite (sim_mono_degree _ _ H). destruct H as [H1 H2]. rewrite H2.
  destruct (degree_is_zero _); [|destruct (_ =? _)%N; [|apply rres_ok; split; [split; assumption|reflexivity]]];
    (eapply rres_bind; [apply Hf, H1|]); intros u v Huv; apply rres_ok; (split; [split; [exact Huv|reflexivity]|reflexivity]).
Qed.
Lemma sim_mono_try_add_term m n c c' d : mr m n -> r c c' -> rr (mut_rel mr) (mono_try_add_term OA m c d) (mono_try_add_term OB n c' d).
Proof. intros H Hc. apply (sim_mono_try (add OA) (add OB)); [|exact H]. intros x y Hx. apply (sm_add _ _ _ _ S); assumption. Qed.
Lemma sim_mono_try_sub_term m n c c' d : mr m n -> r c c' -> rr (mut_rel mr) (mono_try_sub_term OA m c d) (mono_try_sub_term OB n c' d).
Proof. intros H Hc. apply (sim_mono_try (sub OA) (sub OB)); [|exact H]. intros x y Hx. apply (sm_sub _ _ _ _ S); assumption. Qed.
Lemma sim_mono_derivative m n : (mdeg m <= USIZE_MAX)%N -> mr m n -> rr mr (mono_derivative OA m) (mono_derivative OB n).
Proof.
  intros Hd H. unfold mono_derivative. rewrite (sim_mono_degree _ _ H). destruct (mono_degree OB n) as [|x] eqn:E; [apply rres_ok, sim_mono_zero|].
  assert (Hx : x = mdeg n). { unfold mono_degree in E. destruct (is_zero OB (mcoef n)); congruence. }
  destruct x as [|x]; [apply rres_ok, sim_mono_zero|]. destruct H as [H1 H2].
  eapply rres_bind; [eapply sim_expect_exact; [exact S|]; rewrite Hx, <- H2; exact Hd|]. intros u v Huv.
  eapply rres_bind; [apply (sm_mul _ _ _ _ S); eassumption|]. intros p q Hpq.
  apply rres_bind_eq; [eapply sim_usub; exact S|]. intros d. apply rres_ok. split; [exact Hpq|reflexivity].
Qed.
Lemma sim_mono_neg m n : mr m n -> rr mr (mono_neg OA m) (mono_neg OB n).
Proof.
  intros [H1 H2]. unfold mono_neg. eapply rres_bind; [apply (sm_neg _ _ _ _ S), H1|]. intros u v Huv. apply rres_ok.
  split; assumption.
Qed.
Lemma sim_mono_mul a b c d : mr a b -> mr c d -> rr mr (mono_mul OA a c) (mono_mul OB b d).
Proof.
  intros [H1 H2] [H3 H4]. unfold mono_mul. eapply rres_bind; [apply (sm_mul _ _ _ _ S); eassumption|]. intros u v Huv.
  rewrite H2, H4. apply rres_bind_eq; [eapply sim_uadd; exact S|]. intros e. apply rres_ok. split; [exact Huv|reflexivity].
Qed.
Lemma sim_mono_scale a b c d : mr a b -> r c d -> rr mr (mono_scale OA a c) (mono_scale OB b d).
Proof.
  intros [H1 H2] Hc. unfold mono_scale. eapply rres_bind; [apply (sm_mul _ _ _ _ S); eassumption|]. intros u v Huv.
  apply rres_ok. split; assumption.
Qed.
Lemma sim_mono_eq a b c d : mr a b -> mr c d -> mono_eq OA a c = mono_eq OB b d.
Proof.
  intros H H'. unfold mono_eq. pose proof (sim_mono_as_term _ _ H) as K. pose proof (sim_mono_as_term _ _ H') as K'.
  destruct (mono_as_term OA a), (mono_as_term OB b); simpl in K; try contradiction;
    destruct (mono_as_term OA c), (mono_as_term OB d); simpl in K'; try contradiction; try reflexivity.
  destruct K as [K1 <-], K' as [K1' <-]. simpl. f_equal. apply (sm_eqb _ _ _ _ S); assumption.
Qed.
Lemma sim_mono_shift f : forall left m n k, mr m n -> rr mr (mono_shift OA f left m k) (mono_shift OB f left n k).
Proof.
  induction f as [|f IH]; intros left m n k H; simpl; [exact I|].
  destruct (k <? 0)%Z; [apply rres_bind_eq; [eapply sim_neg_i32; exact S|]; intros k'; apply IH, H|].
  destruct H as [H1 H2]. rewrite H2. destruct left.
  - apply rres_bind_eq; [eapply sim_uadd; exact S|]. intros d. apply rres_ok. split; [exact H1|reflexivity].
  - destruct (_ <? _)%N; [apply rres_ok, sim_mono_zero|].
    apply rres_bind_eq; [eapply sim_usub; exact S|]. intros d. apply rres_ok. split; [exact H1|reflexivity].
Qed.

(** ** LinearBinomial *)
Lemma br_list m n : br m n -> rl (bino_list m) (bino_list n).
Proof. intros [H1 H2]. repeat constructor; assumption. Qed.
Lemma sim_bino_terms m n : br m n -> rr (Forall2 tr) (bino_terms OA m) (bino_terms OB n).
Proof. intros H. eapply sim_enum_terms; [exact S|]. apply br_list, H. Qed.
Lemma sim_bino_term_with_degree m n d : br m n -> rr tmr (bino_term_with_degree OA m d) (bino_term_with_degree OB n d).
Proof. intros H. eapply sim_term_with_deg; [exact S|]. apply br_list, H. Qed.
Lemma sim_bino_degree m n : br m n -> bino_degree OA m = bino_degree OB n.
Proof. intros [H1 H2]. unfold bino_degree. rz. reflexivity. Qed.
Lemma sim_bino_update m n d f g : (forall x y, r x y -> rr r (f x) (g y)) -> br m n ->
  rr br (bino_update OA m d f) (bino_update OB n d g).
Proof.
  intros Hf [H1 H2]. unfold bino_update. apply rres_bind_eq; [eapply sim_usub; exact S|]. intros [|[| |]]; try exact I;
    (eapply rres_bind; [apply Hf; eassumption|]); intros u v Huv; apply rres_ok; split; assumption.
Qed.
Lemma sim_bino_try_add_term m n c c' d : br m n -> r c c' -> rr (mut_rel br) (bino_try_add_term OA m c d) (bino_try_add_term OB n c' d).
Proof.
  intros H Hc. unfold bino_try_add_term. destruct (_ <=? _)%N; [|apply rres_ok; split; [exact H|reflexivity]].
  eapply rres_bind; [apply sim_bino_update; [|exact H]; intros x y Hx; apply (sm_add _ _ _ _ S); eassumption|].
  intros u v Huv. apply rres_ok. split; [exact Huv|reflexivity].
Qed.
Lemma sim_bino_try_sub_term m n c c' d : br m n -> r c c' -> rr (mut_rel br) (bino_try_sub_term OA m c d) (bino_try_sub_term OB n c' d).
Proof.
  intros H Hc. unfold bino_try_sub_term. destruct (_ <=? _)%N; [|apply rres_ok; split; [exact H|reflexivity]].
  eapply rres_bind; [apply sim_bino_update; [|exact H]; intros x y Hx; apply (sm_sub _ _ _ _ S); eassumption|].
  intros u v Huv. apply rres_ok. split; [exact Huv|reflexivity].
Qed.
Lemma sim_bino_eval m n p q : br m n -> r p q -> rr r (bino_eval OA m p) (bino_eval OB n q).
Proof.
  intros [H1 H2] Hp. unfold bino_eval. eapply rres_bind; [apply (sm_mul _ _ _ _ S); eassumption|]. intros u v Huv.
  apply (sm_add _ _ _ _ S); assumption.
Qed.
Lemma sim_bino_derivative m n : br m n -> br (bino_derivative OA m) (bino_derivative OB n).
Proof. intros [H1 H2]. split; [apply (sm_zero _ _ _ _ S)|exact H1]. Qed.
Lemma sim_bino_eq a b c d : br a b -> br c d -> bino_eq OA a c = bino_eq OB b d.
Proof. intros [H1 H2] [H3 H4]. unfold bino_eq. f_equal; apply (sm_eqb _ _ _ _ S); assumption. Qed.
Lemma sim_bino_map f g m n : (forall x y, r x y -> rr r (f x) (g y)) -> br m n -> rr br (bino_map f m) (bino_map g n).
Proof.
  intros Hf [H1 H2]. unfold bino_map. eapply rres_bind; [apply Hf, H1|]. intros u v Huv.
  eapply rres_bind; [apply Hf, H2|]. intros u' v' Huv'. apply rres_ok. split; assumption.
Qed.
Lemma sim_bino_map2 f g a b c d : (forall x y x' y', r x y -> r x' y' -> rr r (f x x') (g y y')) -> br a b -> br c d ->
  rr br (bino_map2 f a c) (bino_map2 g b d).
Proof.
  intros Hf [H1 H2] [H3 H4]. unfold bino_map2. eapply rres_bind; [apply Hf; eassumption|]. intros u v Huv.
  eapply rres_bind; [apply Hf; eassumption|]. intros u' v' Huv'. apply rres_ok. split; assumption.
Qed.
Lemma sim_bino_neg m n : br m n -> rr br (bino_neg OA m) (bino_neg OB n).
Proof. apply sim_bino_map, (sm_neg _ _ _ _ S). Qed.
Lemma sim_bino_scale m n c d : br m n -> r c d -> rr br (bino_scale OA m c) (bino_scale OB n d).
Proof. intros H Hc. apply sim_bino_map; [|exact H]. intros x y Hx. apply (sm_mul _ _ _ _ S); assumption. Qed.
Lemma sim_bino_add a b c d : br a b -> br c d -> rr br (bino_add OA a c) (bino_add OB b d).
Proof. apply sim_bino_map2. intros. apply (sm_add _ _ _ _ S); assumption. Qed.
Lemma sim_bino_sub a b c d : br a b -> br c d -> rr br (bino_sub OA a c) (bino_sub OB b d).
Proof. apply sim_bino_map2. intros. apply (sm_sub _ _ _ _ S); assumption. Qed.
Lemma sim_bino_shr m n k : br m n -> br (bino_shr OA m k) (bino_shr OB n k).
Proof.
  intros [H1 H2]. pose proof (sm_zero _ _ _ _ S). unfold bino_shr, bino_zero. destruct k as [|[| |]]; split; assumption.
Qed.

(** ** QuadraticTrinomial *)
Lemma qr_list m n : qr m n -> rl (trino_list m) (trino_list n).
Proof. intros (H1 & H2 & H3). repeat constructor; assumption. Qed.
Lemma sim_trino_terms m n : qr m n -> rr (Forall2 tr) (trino_terms OA m) (trino_terms OB n).
Proof. intros H. eapply sim_enum_terms; [exact S|]. apply qr_list, H. Qed.
Lemma sim_trino_term_with_degree m n d : qr m n -> rr tmr (trino_term_with_degree OA m d) (trino_term_with_degree OB n d).
Proof. intros H. eapply sim_term_with_deg; [exact S|]. apply qr_list, H. Qed.
Lemma sim_trino_degree m n : qr m n -> trino_degree OA m = trino_degree OB n.
Proof. intros (H1 & H2 & H3). unfold trino_degree. rz. reflexivity. Qed.
Lemma sim_trino_update m n d f g : (forall x y, r x y -> rr r (f x) (g y)) -> qr m n ->
  rr qr (trino_update OA m d f) (trino_update OB n d g).
Proof.
  intros Hf (H1 & H2 & H3). unfold trino_update. apply rres_bind_eq; [eapply sim_usub; exact S|]. intros [|[|[| |]|]]; try exact I;
    (eapply rres_bind; [apply Hf; eassumption|]); intros u v Huv; apply rres_ok; repeat split; assumption.
Qed.
Lemma sim_trino_try_add_term m n c c' d : qr m n -> r c c' -> rr (mut_rel qr) (trino_try_add_term OA m c d) (trino_try_add_term OB n c' d).
Proof.
  intros H Hc. unfold trino_try_add_term. destruct (_ <=? _)%N; [|apply rres_ok; split; [exact H|reflexivity]].
  eapply rres_bind; [apply sim_trino_update; [|exact H]; intros x y Hx; apply (sm_add _ _ _ _ S); eassumption|].
  intros u v Huv. apply rres_ok. split; [exact Huv|reflexivity].
Qed.
Lemma sim_trino_try_sub_term m n c c' d : qr m n -> r c c' -> rr (mut_rel qr) (trino_try_sub_term OA m c d) (trino_try_sub_term OB n c' d).
Proof.
  intros H Hc. unfold trino_try_sub_term. destruct (_ <=? _)%N; [|apply rres_ok; split; [exact H|reflexivity]].
  eapply rres_bind; [apply sim_trino_update; [|exact H]; intros x y Hx; apply (sm_sub _ _ _ _ S); eassumption|].
  intros u v Huv. apply rres_ok. split; [exact Huv|reflexivity].
Qed.
Lemma sim_trino_eval m n p q : qr m n -> r p q -> rr r (trino_eval OA m p) (trino_eval OB n q).
Proof.
  intros (H1 & H2 & H3) Hp. unfold trino_eval. eapply rres_bind; [apply (sm_mul _ _ _ _ S); eassumption|]. intros u v Huv.
  eapply rres_bind; [apply (sm_add _ _ _ _ S); eassumption|]. intros u' v' Huv'.
  eapply rres_bind; [apply (sm_mul _ _ _ _ S); eassumption|]. intros u2 v2 Huv2. apply (sm_add _ _ _ _ S); assumption.
Qed.
Lemma sim_trino_derivative m n : qr m n -> rr qr (trino_derivative OA m) (trino_derivative OB n).
Proof.
  intros (H1 & H2 & H3). unfold trino_derivative. eapply rres_bind; [eapply sim_expect_exact; [exact S|vm_compute; discriminate]|].
  intros u v Huv. eapply rres_bind; [apply (sm_mul _ _ _ _ S); eassumption|]. intros u' v' Huv'. apply rres_ok.
  repeat split; try assumption. apply (sm_zero _ _ _ _ S).
Qed.
Lemma sim_trino_eq a b c d : qr a b -> qr c d -> trino_eq OA a c = trino_eq OB b d.
Proof. intros (H1 & H2 & H3) (H4 & H5 & H6). unfold trino_eq. f_equal; [|f_equal]; apply (sm_eqb _ _ _ _ S); assumption. Qed.
Lemma sim_trino_map f g m n : (forall x y, r x y -> rr r (f x) (g y)) -> qr m n -> rr qr (trino_map f m) (trino_map g n).
Proof.
  intros Hf (H1 & H2 & H3). unfold trino_map. eapply rres_bind; [apply Hf, H1|]. intros u v Huv.
  eapply rres_bind; [apply Hf, H2|]. intros u' v' Huv'. eapply rres_bind; [apply Hf, H3|]. intros u2 v2 Huv2.
  apply rres_ok. repeat split; assumption.
Qed.
Lemma sim_trino_map2 f g a b c d : (forall x y x' y', r x y -> r x' y' -> rr r (f x x') (g y y')) -> qr a b -> qr c d ->
  rr qr (trino_map2 f a c) (trino_map2 g b d).
Proof.
  intros Hf (H1 & H2 & H3) (H4 & H5 & H6). unfold trino_map2. eapply rres_bind; [apply Hf; eassumption|]. intros u v Huv.
  eapply rres_bind; [apply Hf; eassumption|]. intros u' v' Huv'. eapply rres_bind; [apply Hf; eassumption|]. intros u2 v2 Huv2.
  apply rres_ok. repeat split; assumption.
Qed.
Lemma sim_trino_neg m n : qr m n -> rr qr (trino_neg OA m) (trino_neg OB n).
Proof. apply sim_trino_map, (sm_neg _ _ _ _ S). Qed.
Lemma sim_trino_scale m n c d : qr m n -> r c d -> rr qr (trino_scale OA m c) (trino_scale OB n d).
Proof. intros H Hc. apply sim_trino_map; [|exact H]. intros x y Hx. apply (sm_mul _ _ _ _ S); assumption. Qed.
Lemma sim_trino_add a b c d : qr a b -> qr c d -> rr qr (trino_add OA a c) (trino_add OB b d).
Proof. apply sim_trino_map2. intros. apply (sm_add _ _ _ _ S); assumption. Qed.
Lemma sim_trino_sub a b c d : qr a b -> qr c d -> rr qr (trino_sub OA a c) (trino_sub OB b d).
Proof. apply sim_trino_map2. intros. apply (sm_sub _ _ _ _ S); assumption. Qed.
Lemma sim_trino_shr m n k : qr m n -> qr (trino_shr OA m k) (trino_shr OB n k).
Proof.
  intros (H1 & H2 & H3). pose proof (sm_zero _ _ _ _ S). unfold trino_shr, trino_zero.
  destruct k as [|[|[| |]|]]; repeat split; assumption.
Qed.

(** ** ArrayPolynomial *)
Lemma sim_arr_try (f : A -> A -> res A) (g : B -> B -> res B) l m (c : A) (c' : B) d : (forall x y, r x y -> rr r (f x c) (g y c')) -> rl l m ->
  rr (mut_rel rl)
  (if (d <? len l)%N then
    i1 <- usub (n_chk OA) (len l) d ;; i <- usub (n_chk OA) i1 1 ;;
    a' <- update l i (fun x => f x c) ;; Ok (a', None)
  else Ok (l, Some DegreeOutOfBounds))
  (if (d <? len m)%N then
    i1 <- usub (n_chk OB) (len m) d ;; i <- usub (n_chk OB) i1 1 ;;
    a' <- update m i (fun x => g x c') ;; Ok (a', None)
  else Ok (m, Some DegreeOutOfBounds)).
Proof.
  intros Hf H. rewrite (rl_lenN _ _ _ H). destruct (_ <? _)%N; [|apply rres_ok; split; [exact H|reflexivity]].
  apply rres_bind_eq; [eapply sim_usub; exact S|]. intros i1. apply rres_bind_eq; [eapply sim_usub; exact S|]. intros i.
  eapply rres_bind; [apply (sim_update r cap); [exact Hf|exact H]|]. intros u v Huv. apply rres_ok. split; [exact Huv|reflexivity].
Qed.
Lemma sim_arr_try_add_term l m c c' d : rl l m -> r c c' -> rr (mut_rel rl) (arr_try_add_term OA l c d) (arr_try_add_term OB m c' d).
Proof. intros H Hc. apply (sim_arr_try (add OA) (add OB)); [|exact H]. intros; apply (sm_add _ _ _ _ S); assumption. Qed.
Lemma sim_arr_try_sub_term l m c c' d : rl l m -> r c c' -> rr (mut_rel rl) (arr_try_sub_term OA l c d) (arr_try_sub_term OB m c' d).
Proof. intros H Hc. apply (sim_arr_try (sub OA) (sub OB)); [|exact H]. intros; apply (sm_sub _ _ _ _ S); assumption. Qed.
Lemma sim_arr_deriv_loop l m : rl l m -> forall d e, r d e -> forall o o', rl o o' ->
  rr rl (arr_deriv_loop OA d l o) (arr_deriv_loop OB e m o').
Proof.
  induction 1 as [|x y l m Hx H IH]; intros d e Hd o o' Ho; [destruct Ho; apply rres_ok; constructor; assumption|].
  destruct Ho as [|u v o o' Hu Ho]; [apply rres_ok; constructor|]. cbn [arr_deriv_loop].
  eapply rres_bind; [apply (sm_sub _ _ _ _ S); [exact Hd|apply (sm_one _ _ _ _ S)]|]. intros d' e' Hd'.
  eapply rres_bind; [apply (sm_mul _ _ _ _ S); eassumption|]. intros a b Hab.
  eapply rres_bind; [apply IH; eassumption|]. intros p q Hpq. apply rres_ok. constructor; assumption.
Qed.
Lemma sim_arr_derivative l m : (len l <= USIZE_MAX)%N -> rl l m -> rr rl (arr_derivative OA l) (arr_derivative OB m).
Proof.
  intros Hn H. unfold arr_derivative. rewrite <- (rl_lenN _ _ _ H), <- (rl_len _ _ _ H).
  eapply rres_bind; [eapply sim_expect_cont; [exact S|exact Hn]|]. intros d e Hd.
  destruct (length l) as [|n]; cbn [repeat]; [apply rres_ok; constructor|].
  eapply rres_bind; [apply sim_arr_deriv_loop; [exact H|exact Hd|apply (rl_repeat OA OB r cap S)]|]. intros u v Huv.
  apply rres_ok. constructor; [apply (sm_zero _ _ _ _ S)|exact Huv].
Qed.
Lemma sim_arr_eq a b c d : rl a b -> rl c d -> arr_eq OA a c = arr_eq OB b d.
Proof.
  intros H. revert c d. induction H as [|x y a b Hx H IH]; intros c d H'; destruct H' as [|x' y' c d Hx' H']; simpl; try reflexivity.
  f_equal; [apply (sm_eqb _ _ _ _ S); assumption|apply IH, H'].
Qed.

(** ** Integral *)
Lemma sim_dense_integral_eval l m a b c d : rl l m -> r a b -> r c d ->
  rr r (dense_integral_eval OA l a c) (dense_integral_eval OB m b d).
Proof.
  intros H H1 H2. unfold dense_integral_eval. eapply rres_bind; [eapply sim_dense_eval; eassumption|]. intros u v Huv.
  eapply rres_bind; [eapply sim_dense_eval; eassumption|]. intros u' v' Huv'. apply (sm_sub _ _ _ _ S); assumption.
Qed.

Section Pow.
Hypothesis P : sim_upow OA OB r cap.
Lemma sim_mono_eval m n p q : mr m n -> r p q -> rr r (mono_eval OA m p) (mono_eval OB n q).
Proof.
  intros [H1 H2] Hp. unfold mono_eval. rewrite H2. eapply rres_bind; [apply P, Hp|]. intros u v Huv.
  apply (sm_mul _ _ _ _ S); assumption.
Qed.
Lemma sim_mono_pow m n e : mr m n -> rr mr (mono_pow OA m e) (mono_pow OB n e).
Proof.
  intros [H1 H2]. unfold mono_pow. rewrite H2. eapply rres_bind; [apply P, H1|]. intros u v Huv.
  apply rres_bind_eq; [eapply sim_umul; exact S|]. intros d. apply rres_ok. split; [exact Huv|reflexivity].
Qed.
Lemma sim_sparse_integral_eval m n a b c d : ml m n -> r a b -> r c d ->
  rr r (sparse_integral_eval OA m a c) (sparse_integral_eval OB n b d).
Proof.
  intros H H1 H2. unfold sparse_integral_eval. eapply rres_bind; [eapply sim_sparse_eval; eassumption|]. intros u v Huv.
  eapply rres_bind; [eapply sim_sparse_eval; eassumption|]. intros u' v' Huv'. apply (sm_sub _ _ _ _ S); assumption.
Qed.
End Pow.

Section Div.
Hypothesis D : sim_div OA OB r cap.
Lemma sim_mono_div_scalar a b c d : mr a b -> r c d -> rr mr (mono_div_scalar OA a c) (mono_div_scalar OB b d).
Proof.
  intros [H1 H2] Hc. unfold mono_div_scalar. eapply rres_bind; [apply D; eassumption|]. intros u v Huv.
  apply rres_ok. split; assumption.
Qed.
Lemma sim_bino_div_scalar m n c d : br m n -> r c d -> rr br (bino_div_scalar OA m c) (bino_div_scalar OB n d).
Proof. intros H Hc. apply sim_bino_map; [|exact H]. intros x y Hx. apply D; assumption. Qed.
Lemma sim_trino_div_scalar m n c d : qr m n -> r c d -> rr qr (trino_div_scalar OA m c) (trino_div_scalar OB n d).
Proof. intros H Hc. apply sim_trino_map; [|exact H]. intros x y Hx. apply D; assumption. Qed.
Lemma sim_mono_integral m n : mr m n -> rr ml (mono_integral OA m) (mono_integral OB n).
Proof.
  intros H. unfold mono_integral. rewrite (sim_mono_degree _ _ H). destruct (mono_degree OB n) as [|x]; [apply rres_ok; constructor|].
  destruct H as [H1 H2]. pose proof (sim_uadd OA OB r cap S x 1) as K.
  destruct (uadd (n_chk OA) x 1) as [k1| |] eqn:E; cbn [bind]; try exact I.
  assert (K2 : forall y, rres cap ml y (Panic PCapacity : res (bmap B)) \/ cap = false).
  { intros y. destruct cap; [left|right; reflexivity]. destruct y; simpl; auto. }
  destruct K as [(k2 & E2 & <-)|(Hc & E2)]; rewrite E2; cbn [bind]; [|destruct (K2 (n0 <- expect (of_exact OA k1) ;; c <- div OA (mcoef m) n0 ;; sparse_from_terms OA [(c, k1)])); [assumption|congruence]].
  eapply rres_bind; [eapply sim_expect_exact; [exact S|eapply uadd_usize, E]|]. intros u v Huv.
  eapply rres_bind; [apply D; eassumption|]. intros p q Hpq. eapply sim_sparse_from_terms; [exact S|].
  constructor; [split; [exact Hpq|reflexivity]|constructor].
Qed.
Lemma sim_bino_integral m n : br m n -> rr rl (bino_integral OA m) (bino_integral OB n).
Proof.
  intros [H1 H2]. unfold bino_integral. eapply rres_bind; [eapply sim_expect_cont; [exact S|vm_compute; discriminate]|].
  intros u v Huv. eapply rres_bind; [apply D; eassumption|]. intros p q Hpq. eapply sim_dense_new; [exact S|].
  pose proof (sm_zero _ _ _ _ S). repeat constructor; assumption.
Qed.
Lemma sim_trino_integral m n : qr m n -> rr rl (trino_integral OA m) (trino_integral OB n).
Proof.
  intros (H1 & H2 & H3). unfold trino_integral. eapply rres_bind; [eapply sim_expect_exact; [exact S|vm_compute; discriminate]|].
  intros u v Huv. eapply rres_bind; [apply D; eassumption|]. intros p q Hpq.
  eapply rres_bind; [eapply sim_expect_exact; [exact S|vm_compute; discriminate]|].
  intros u' v' Huv'. eapply rres_bind; [apply D; eassumption|]. intros p' q' Hpq'. eapply sim_dense_new; [exact S|].
  pose proof (sm_zero _ _ _ _ S). repeat constructor; assumption.
Qed.
Lemma sim_arr_integral l m : (len l <= USIZE_MAX)%N -> rl l m -> rr rl (arr_integral OA l) (arr_integral OB m).
Proof.
  intros Hn H. unfold arr_integral. rewrite <- (rl_lenN _ _ _ H). eapply rres_bind; [eapply sim_expect_cont; [exact S|exact Hn]|].
  intros d e Hd. eapply rres_bind; [eapply sim_integ_loop; eassumption|]. intros u v Huv.
  apply rres_bind_eq; [eapply sim_vec_grow; [exact S|exact Huv]|]. intros _. apply rres_ok, Forall2_app; [exact Huv|].
  constructor; [apply (sm_zero _ _ _ _ S)|constructor].
Qed.
End Div.
End Sim.
