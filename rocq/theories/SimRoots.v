(** Two builds of the same coefficient type: root finding and parsing (see Sim.v). *)

From Coq Require Import List NArith ZArith Lia Bool Arith.
From Coq Require Import ZifyBool ZifyNat ZifyN.
From Verif Require Import Base Num Terms Dense Sparse Mono Bino Trino ArrPoly PolyMath Strs Integr Roots Sim SimSparse SimFixed SimText.
Import ListNotations.

(** Whatever [x] returns, [y] returns. *)
Definition kept {X} (x y : res X) : Prop := forall v, x = Ok v -> y = Ok v.

Lemma kept_refl {X} (x : res X) : kept x x.
Proof. intros v H. exact H. Qed.
Lemma kept_bind {X Y} (x y : res X) (f g : X -> res Y) : kept x y -> (forall a, kept (f a) (g a)) -> kept (bind x f) (bind y g).
Proof. intros H1 H2 v H. destruct x as [a| |]; try discriminate. rewrite (H1 a eq_refl). apply H2, H. Qed.
Lemma rres_kept {X} (R : X -> X -> Prop) x y : (forall a b, R a b -> a = b) -> rres false R x y -> kept x y.
Proof. intros HR H v ->. destruct H as [(b & -> & Hb)|(H & _)]; [|discriminate]. rewrite (HR _ _ Hb). reflexivity. Qed.
Lemma kept_rres {X} (x y : res X) : kept x y -> rres false eq x y.
Proof. intros H. destruct x as [a| |]; try exact I. left. exists a. split; [apply H|]; reflexivity. Qed.

(** Related by equality: equal. *)
Lemma eq_refl_rel {X} (x : X) : x = x. Proof. reflexivity. Qed.
Lemma f2_eq {X} (R : X -> X -> Prop) : (forall a b, R a b -> a = b) -> forall l m, Forall2 R l m -> l = m.
Proof. intros H l m K. induction K as [|a b l m Hab _ IH]; [reflexivity|]. rewrite (H a b Hab), IH. reflexivity. Qed.
Lemma f2_refl {X} (R : X -> X -> Prop) : (forall a, R a a) -> forall l, Forall2 R l l.
Proof. intros H l. induction l; constructor; auto. Qed.
Lemma entry_eq {X} (a b : N * X) : entry_rel eq a b -> a = b.
Proof. destruct a, b. intros [H1 H2]. simpl in *. subst. reflexivity. Qed.
Lemma entry_refl {X} (a : N * X) : entry_rel eq a a. Proof. split; reflexivity. Qed.
Lemma term_eq {X} (a b : X * N) : term_rel eq a b -> a = b.
Proof. destruct a, b. intros [H1 H2]. simpl in *. subst. reflexivity. Qed.
Lemma term_refl {X} (a : X * N) : term_rel eq a a. Proof. split; reflexivity. Qed.
Lemma Term_eq {X} (a b : term X) : Term_rel eq a b -> a = b.
Proof. destruct a, b; simpl; try tauto. intros [-> ->]. reflexivity. Qed.
Lemma mono_eq_rel {X} (a b : mono X) : mono_rel eq a b -> a = b.
Proof. destruct a, b. intros [H1 H2]. simpl in *. subst. reflexivity. Qed.
Lemma bino_eq_rel {X} (a b : bino X) : bino_rel eq a b -> a = b.
Proof. destruct a, b. intros [H1 H2]. simpl in *. subst. reflexivity. Qed.
Lemma trino_eq_rel {X} (a b : trino X) : trino_rel eq a b -> a = b.
Proof. destruct a, b. intros (H1 & H2 & H3). simpl in *. subst. reflexivity. Qed.
Lemma mono_refl {X} (a : mono X) : mono_rel eq a a. Proof. split; reflexivity. Qed.
Lemma bino_refl {X} (a : bino X) : bino_rel eq a a. Proof. split; reflexivity. Qed.
Lemma trino_refl {X} (a : trino X) : trino_rel eq a a. Proof. repeat split; reflexivity. Qed.
Lemma mut_eq {X} (R : X -> X -> Prop) : (forall a b, R a b -> a = b) -> forall a b, mut_rel R a b -> a = b.
Proof. intros H [a o] [b p] [H1 H2]. simpl in *. rewrite (H _ _ H1), H2. reflexivity. Qed.
Lemma pair_eq {X} (R : X -> X -> Prop) : (forall a b, R a b -> a = b) -> forall a b, pair_rel R a b -> a = b.
Proof. intros H [a o] [b p] [H1 H2]. simpl in *. rewrite (H _ _ H1), (H _ _ H2). reflexivity. Qed.
Lemma id_eq {X} (a b : X) : a = b -> a = b. Proof. auto. Qed.

Ltac eqr := first [exact (fun _ _ H => H) | apply entry_eq | apply term_eq | apply Term_eq | apply mono_eq_rel | apply bino_eq_rel | apply trino_eq_rel
  | apply f2_eq; eqr | apply mut_eq; eqr | apply pair_eq; eqr].
Ltac rfl := first [eassumption | reflexivity | apply entry_refl | apply term_refl | apply mono_refl | apply bino_refl | apply trino_refl
  | apply f2_refl; intro; rfl].
Ltac kep L := eapply rres_kept; [|eapply L; rfl]; eqr.

Section Kept.
Context {T : Type} (OA OB : num T).
Hypothesis S : sim OA OB eq false.
Hypothesis D : sim_div OA OB eq false.

Lemma kept_add a b : kept (add OA a b) (add OB a b). Proof. kep (sm_add _ _ _ _ S). Qed.
Lemma kept_sub a b : kept (sub OA a b) (sub OB a b). Proof. kep (sm_sub _ _ _ _ S). Qed.
Lemma kept_mul a b : kept (mul OA a b) (mul OB a b). Proof. kep (sm_mul _ _ _ _ S). Qed.
Lemma kept_neg a : kept (neg OA a) (neg OB a). Proof. kep (sm_neg _ _ _ _ S). Qed.
Lemma kept_absv a : kept (absv OA a) (absv OB a). Proof. kep (sm_absv _ _ _ _ S). Qed.
Lemma kept_div a b : kept (div OA a b) (div OB a b). Proof. kep D. Qed.
Lemma kept_uadd a b : kept (uadd (n_chk OA) a b) (uadd (n_chk OB) a b). Proof. kep @sim_uadd. Qed.
Lemma kept_usub a b : kept (usub (n_chk OA) a b) (usub (n_chk OB) a b). Proof. kep @sim_usub. Qed.
Lemma kept_index {X} (l : list X) i : kept (index l i) (index l i). Proof. apply kept_refl. Qed.
Lemma kept_update (l : list T) i f g : (forall x, kept (f x) (g x)) -> kept (update l i f) (update l i g).
Proof.
  intros H. eapply rres_kept; [|eapply (sim_update eq false)]; [eqr| |rfl].
  intros x y <-. apply kept_rres, H.
Qed.
Lemma kept_repeat n : kept (vec_repeat (n_max_len OA) (zero OA) n) (vec_repeat (n_max_len OB) (zero OA) n).
Proof. rewrite (sm_zero _ _ _ _ S) at 2. kep @sim_vec_repeat. Qed.
Lemma kept_mapM (f g : T -> res T) (l : list T) : (forall x : T, kept (f x) (g x)) -> kept (mapM f l) (mapM g l).
Proof.
  intros H. eapply rres_kept; [|eapply (sim_mapM eq false)]; [eqr| |rfl]. intros x y <-. apply kept_rres, H.
Qed.
Lemma kept_foldM {X Y} (f g : X -> Y -> res X) : (forall x y, kept (f x y) (g x y)) -> forall l x, kept (foldM f x l) (foldM g x l).
Proof.
  intros H l. induction l as [|y l IH]; intros x; cbn [foldM]; [apply kept_refl|]. apply kept_bind; [apply H|]. exact IH.
Qed.
Lemma eq_zero : zero OB = zero OA. Proof. symmetry. apply (sm_zero _ _ _ _ S). Qed.
Lemma eq_one : one OB = one OA. Proof. symmetry. apply (sm_one _ _ _ _ S). Qed.
Lemma eq_is_zero a : is_zero OB a = is_zero OA a. Proof. symmetry. apply (sm_is_zero _ _ _ _ S). reflexivity. Qed.
Lemma eq_is_pos a : is_pos OB a = is_pos OA a. Proof. symmetry. apply (sm_is_pos _ _ _ _ S). reflexivity. Qed.
Lemma eq_first_term l : first_term OB l = first_term OA l.
Proof. symmetry. apply Term_eq. eapply (@sim_first_term _ _ OA OB eq false); rfl. Qed.
Lemma eq_fnz l : first_nonzero_index OB l = first_nonzero_index OA l.
Proof. symmetry. eapply (@sim_fnz _ _ OA OB eq false); rfl. Qed.

Ltac kb := repeat first [rewrite eq_zero | rewrite eq_one | rewrite eq_is_zero | rewrite eq_is_pos | rewrite eq_first_term | rewrite eq_fnz
  | apply kept_add | apply kept_sub | apply kept_mul | apply kept_neg | apply kept_absv | apply kept_div | apply kept_uadd | apply kept_usub
  | apply kept_repeat | apply kept_update; intro | apply kept_mapM; intro | apply kept_refl
  | apply kept_bind; [|intros ?]
  | match goal with
    | |- kept (if ?b then _ else _) _ => destruct b
    | |- kept (match ?x with _ => _ end) _ => destruct x
    end].

Context (R : rops T).
Lemma kept_discriminant a b c : kept (discriminant_trinomial OA R a b c) (discriminant_trinomial OB R a b c).
Proof. unfold discriminant_trinomial. kb. Qed.
Lemma kept_trinomial_roots a b c : kept (trinomial_roots OA R a b c) (trinomial_roots OB R a b c).
Proof. unfold trinomial_roots. apply kept_bind; [apply kept_discriminant|intros]. kb. Qed.
Lemma kept_cubic_roots a b c d : kept (cubic_roots OA R a b c d) (cubic_roots OB R a b c d).
Proof.
  unfold cubic_roots, sqr, cub. kb. all: try (apply kept_trinomial_roots).
Qed.
Lemma kept_defl_loop f : forall root off c sd v dv, kept (defl_loop OA f root off c sd v dv) (defl_loop OB f root off c sd v dv).
Proof.
  induction f as [|f IH]; intros; cbn [defl_loop]; [apply kept_refl|]. destruct (1 <=? sd)%N; [|apply kept_refl].
  rewrite eq_one. do 8 (apply kept_bind; [kb|intros ?]). rewrite eq_first_term.
  destruct (first_term OA _); [apply kept_refl|apply IH].
Qed.
Lemma kept_deflate f v root : kept (deflate OA f v root) (deflate OB f v root).
Proof.
  unfold deflate. rewrite eq_first_term. destruct (first_term OA v) as [|c d]; [apply kept_refl|].
  destruct (d =? 1)%N; [apply kept_refl|]. rewrite eq_zero. apply kept_bind; [apply kept_repeat|intros]. apply kept_defl_loop.
Qed.
Lemma kept_normalize v : kept (normalize OA v) (normalize OB v).
Proof. unfold normalize. rewrite eq_fnz. destruct (_ =? _); kb. Qed.
Lemma kept_special p : kept (find_roots_special OA R p) (find_roots_special OB R p).
Proof.
  unfold find_roots_special. rewrite eq_zero.
  assert (K2 : forall a b c, kept (rs <- trinomial_roots OA R a b c ;;
     match rs with TwoComplexRoots a b => Ok (Some (ManyComplexRoots [a; b])) | TwoRealRoots a b => Ok (Some (ManyRealRoots [a; b])) | _ => Panic PUnreachable end)
     (rs <- trinomial_roots OB R a b c ;;
     match rs with TwoComplexRoots a b => Ok (Some (ManyComplexRoots [a; b])) | TwoRealRoots a b => Ok (Some (ManyRealRoots [a; b])) | _ => Panic PUnreachable end)).
  { intros a b c. apply kept_bind; [apply kept_trinomial_roots|]. intros. apply kept_refl. }
  assert (K3 : forall a b c d, kept (rs <- cubic_roots OA R a b c d ;;
     match rs with ThreeComplexRoots a b c => Ok (Some (ManyComplexRoots [a; b; c])) | ThreeRealRoots a b c => Ok (Some (ManyRealRoots [a; b; c])) | _ => Panic PUnreachable end)
     (rs <- cubic_roots OB R a b c d ;;
     match rs with ThreeComplexRoots a b c => Ok (Some (ManyComplexRoots [a; b; c])) | ThreeRealRoots a b c => Ok (Some (ManyRealRoots [a; b; c])) | _ => Panic PUnreachable end)).
  { intros a b c d. apply kept_bind; [apply kept_cubic_roots|]. intros. apply kept_refl. }
  repeat match goal with
  | |- kept (bind ?x _) (bind ?x _) => apply kept_bind; [apply kept_refl|intros ?]
  | |- kept ?x ?x => apply kept_refl
  | |- kept (bind (neg OA _) _) _ => apply kept_bind; [apply kept_neg|intros ?]
  | |- kept (bind (div OA _ _) _) _ => apply kept_bind; [apply kept_div|intros ?]
  | |- kept (let '(_, _) := ?x in _) _ => destruct x
  | |- kept (match ?x with _ => _ end) _ => destruct x
  end; auto.
Qed.
Section Find.
Context (solver : nat -> list T -> list T) (dfuel : nat) (dg : degree) (ea eb : T -> res T).
Hypothesis He : forall x, kept (ea x) (eb x).
Lemma kept_take_root st r : kept (take_root OA R dfuel ea st r) (take_root OB R dfuel eb st r).
Proof.
  unfold take_root. repeat (apply kept_bind; [first [apply He | apply kept_absv | apply kept_deflate]|intros ?]). apply kept_refl.
Qed.
Lemma kept_find_loop f : forall pass v nv rts, kept (find_loop OA R solver dfuel dg ea f pass v nv rts) (find_loop OB R solver dfuel dg eb f pass v nv rts).
Proof.
  induction f as [|f IH]; intros; cbn [find_loop]; [apply kept_refl|]. apply kept_bind; [apply kept_refl|intros tail].
  destruct (solver pass tail) as [|s ss]; [apply kept_refl|].
  apply kept_bind; [apply kept_foldM, kept_take_root|]. intros [nv' rts']. destruct nv' as [|n nv']; [apply kept_refl|].
  apply kept_bind; [apply kept_normalize|intros ?]. apply kept_bind; [apply kept_refl|intros ?].
  apply kept_bind; [apply kept_mapM; intro; apply kept_div|intros ?]. apply IH.
Qed.
Lemma kept_find_roots f vals : kept (find_roots OA R solver dfuel dg ea f vals) (find_roots OB R solver dfuel dg eb f vals).
Proof.
  unfold find_roots. apply kept_bind; [apply kept_special|]. intros [rs|]; [apply kept_refl|].
  apply kept_bind; [apply kept_refl|]. intros [ld dgr]. rewrite eq_zero.
  apply kept_bind; [apply kept_uadd|intros n]. apply kept_bind; [apply kept_repeat|intros v]. apply kept_bind; [apply kept_repeat|intros nv].
  apply kept_bind; [apply kept_refl|intros nv']. apply kept_bind; [apply kept_refl|intros rest].
  apply kept_bind; [|intros [v' nv'']; apply kept_find_loop]. apply kept_foldM. intros st t. unfold fill_step.
  apply kept_bind; [apply kept_usub|intros ?]. apply kept_bind; [apply kept_div|intros ?]. apply kept_refl.
Qed.
End Find.
Lemma kept_dense_roots solver df f p : kept (dense_roots OA R solver df f p) (dense_roots OB R solver df f p).
Proof.
  unfold dense_roots. apply kept_bind; [kep @sim_dense_terms|]. intros vals.
  assert (dense_degree OB p = dense_degree OA p) as -> by (symmetry; eapply (@sim_degree _ _ OA OB eq false); rfl).
  apply kept_find_roots. intros x. kep @sim_dense_eval.
Qed.
Lemma kept_sparse_roots (U : sim_upow OA OB eq false) solver df f p : kept (sparse_roots OA R solver df f p) (sparse_roots OB R solver df f p).
Proof.
  unfold sparse_roots.
  assert (sparse_degree OB p = sparse_degree OA p) as -> by (symmetry; eapply (@sim_sparse_degree _ _ OA OB eq false); rfl).
  assert (sparse_terms OB p = sparse_terms OA p) as ->.
  { symmetry. eapply f2_eq; [apply term_eq|]. eapply (@sim_sparse_terms _ _ OA OB eq false); rfl. }
  apply kept_find_roots. intros x. kep @sim_sparse_eval.
Qed.
Lemma eq_mono_root p : mono_root OB p = mono_root OA p.
Proof.
  unfold mono_root. assert (mono_degree OB p = mono_degree OA p) as -> by (symmetry; eapply (@sim_mono_degree _ _ OA OB eq false); rfl).
  rewrite eq_zero. reflexivity.
Qed.
Lemma kept_bino_root p : kept (bino_root OA p) (bino_root OB p).
Proof. unfold bino_root. kb. Qed.
Lemma kept_trino_roots p : kept (trino_roots OA R p) (trino_roots OB R p).
Proof. apply kept_trinomial_roots. Qed.
Lemma kept_trino_complex_factors p : kept (trino_complex_factors OA R p) (trino_complex_factors OB R p).
Proof. unfold trino_complex_factors. apply kept_bind; [apply kept_trino_roots|]. intros []; kb. Qed.
Lemma kept_trino_real_factors p : kept (trino_real_factors OA R p) (trino_real_factors OB R p).
Proof. unfold trino_real_factors. apply kept_bind; [apply kept_trino_roots|]. intros []; kb. Qed.

(** parsing *)
Context (X : txt T).
Lemma eq_term_finish nv c sx sc : term_finish OB X nv c sx sc = term_finish OA X nv c sx sc.
Proof.
  unfold term_finish, term_new. destruct sx, sc; rewrite ?eq_is_zero; try reflexivity.
  all: repeat match goal with |- context [match ?x with _ => _ end] => destruct x; rewrite ?eq_is_zero; try reflexivity end.
Qed.
Lemma eq_term_loop s : forall nv c sx sc, term_loop OB X s nv c sx sc = term_loop OA X s nv c sx sc.
Proof.
  induction s as [|x s IH]; intros; cbn [term_loop]; [apply eq_term_finish|].
  repeat match goal with |- context [match ?x with _ => _ end] => destruct x; rewrite ?IH; try reflexivity end.
Qed.
Context {P : Type} (SA SB : mutpoly T P).
Hypothesis HA : forall p c d, kept (s_add SA p c d) (s_add SB p c d).
Lemma kept_from_str_loop s rs : forall p, kept (from_str_loop OA X SA s rs p) (from_str_loop OB X SB s rs p).
Proof.
  induction rs as [|[a b] rs IH]; intros; cbn [from_str_loop]; [apply kept_refl|]. apply kept_bind; [apply kept_refl|intros tok].
  unfold term_from_str. rewrite eq_one, eq_term_loop. destruct (term_loop OA X tok [] (one OA) false false) as [[|c d]|e]; [apply IH| |apply kept_refl].
  apply kept_bind; [apply HA|]. intros [p' o]. cbn [snd fst]. destruct o; [apply kept_refl|apply IH].
Qed.
Lemma kept_poly_from_str p s : kept (poly_from_str OA X SA p s) (poly_from_str OB X SB p s).
Proof.
  unfold poly_from_str. apply kept_bind; [apply kept_refl|intros rs]. destruct rs; [apply kept_refl|]. apply kept_from_str_loop.
Qed.
End Kept.
