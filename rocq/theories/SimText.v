(** Accumulation into polynomials, text output and parsing over corresponding coefficient types
    (see Sim.v). *)

From Coq Require Import String Ascii List NArith ZArith Lia Bool Arith.
From Coq Require Import ZifyBool ZifyNat ZifyN.
From Verif Require Import Base Num Terms Dense Sparse Mono Bino Trino ArrPoly PolyMath Strs Integr Sim SimSparse SimFixed.
Import ListNotations.
Local Open Scope char_scope.
Local Open Scope nat_scope.

(** A parse result: the same error is not required, only the value. *)
Definition sum_rel {X Y E} (R : X -> Y -> Prop) (x : X + E) (y : Y + E) : Prop :=
  match x with inl p => exists q, y = inl q /\ R p q | inr _ => True end.

(** Parsing a whole polynomial: whatever [x] yields. *)
Definition pres {X Y E} (cap : bool) (R : X -> Y -> Prop) (x : res (X + E)) (y : res (Y + E)) : Prop :=
  match x with
  | Ok (inl p) => (exists q, y = Ok (inl q) /\ R p q) \/ (cap = true /\ y = Panic PCapacity)
  | _ => True
  end.

Section Sim.
Context {A B : Type} (OA : num A) (OB : num B) (r : A -> B -> Prop) (cap : bool).
Hypothesis S : sim OA OB r cap.
Notation rr := (rres cap).
Notation rl := (Forall2 r).
Notation tr := (term_rel r).
Notation tmr := (Term_rel r).
Notation ml := (Forall2 (entry_rel r)).

(** ** poly_math *)
Section Sink.
Context {P Q : Type} (R : P -> Q -> Prop).

Lemma sim_apply_terms f g : (forall p q c c' d, R p q -> r c c' -> rr (mut_rel R) (f p c d) (g q c' d)) ->
  forall ts ts', Forall2 tr ts ts' -> forall p q, R p q -> rr (mut_rel R) (apply_terms f ts p) (apply_terms g ts' q).
Proof.
  intros Hf ts ts' H. induction H as [|[c d] [c' d'] ts ts' [H1 H2] H IH]; intros p q Hp; simpl in *;
    [apply rres_ok; split; [exact Hp|reflexivity]|]. subst d'.
  eapply rres_bind; [apply Hf; eassumption|]. intros [u e] [v e'] [Hu He]. simpl in *. subst e'.
  destruct e; [apply rres_ok; split; [exact Hu|reflexivity]|]. apply IH, Hu.
Qed.
Lemma sim_apply_all f g : (forall p q c c' d, R p q -> r c c' -> rr (mut_rel R) (f p c d) (g q c' d)) ->
  forall xs xs', Forall2 (Forall2 tr) xs xs' -> forall p q, R p q -> rr (mut_rel R) (apply_all f xs p) (apply_all g xs' q).
Proof.
  intros Hf xs xs' H. induction H as [|ts ts' xs xs' H1 H IH]; intros p q Hp; simpl;
    [apply rres_ok; split; [exact Hp|reflexivity]|].
  eapply rres_bind; [apply sim_apply_terms; eassumption|]. intros [u e] [v e'] [Hu He]. simpl in *. subst e'.
  eapply rres_bind; [apply IH, Hu|]. intros [u2 e2] [v2 e2'] [Hu2 He2]. simpl in *. subst e2'.
  apply rres_ok. split; [exact Hu2|reflexivity].
Qed.

Context (SA : mutpoly A P) (SB : mutpoly B Q).
Hypothesis HA : forall p q c c' d, R p q -> r c c' -> rr (mut_rel R) (s_add SA p c d) (s_add SB q c' d).

Lemma sim_pm_mul_row c c' d ts ts' : r c c' -> Forall2 tr ts ts' -> forall p q, R p q ->
  rr (mut_rel R) (PolyMath.mul_row OA SA c d ts p) (PolyMath.mul_row OB SB c' d ts' q).
Proof.
  intros Hc H. induction H as [|[x k] [x' k'] ts ts' [H1 H2] H IH]; intros p q Hp; simpl in *;
    [apply rres_ok; split; [exact Hp|reflexivity]|]. subst k'.
  eapply rres_bind; [apply (sm_mul _ _ _ _ S); eassumption|]. intros u v Huv.
  apply rres_bind_eq; [eapply sim_uadd; exact S|]. intros e.
  eapply rres_bind; [apply HA; eassumption|]. intros [p' o] [q' o'] [Hp' Ho]. simpl in *. subst o'.
  destruct o; [apply rres_ok; split; [exact Hp'|reflexivity]|]. apply IH, Hp'.
Qed.
Lemma sim_mul_poly_vec rhs rhs' ts ts' : Forall2 tr rhs rhs' -> Forall2 tr ts ts' -> forall p q, R p q ->
  rr (mut_rel R) (mul_poly_vec OA SA rhs ts p) (mul_poly_vec OB SB rhs' ts' q).
Proof.
  intros Hr Ht. induction Hr as [|[x k] [x' k'] rhs rhs' [H1 H2] H IH]; intros p q Hp; simpl in *;
    [apply rres_ok; split; [exact Hp|reflexivity]|]. subst k'.
  eapply rres_bind; [apply sim_pm_mul_row; eassumption|]. intros [p' o] [q' o'] [Hp' Ho]. simpl in *. subst o'.
  destruct o; [apply rres_ok; split; [exact Hp'|reflexivity]|]. apply IH, Hp'.
Qed.

(** ** parsing *)
Context (XA : txt A) (XB : txt B).
Hypothesis HX : forall s v, parse XA s = Some v -> exists w, parse XB s = Some w /\ r v w.

Lemma sim_coeff_at_x nv c c' : r c c' -> sum_rel r (coeff_at_x XA nv c) (coeff_at_x XB nv c').
Proof.
  intros Hc. unfold coeff_at_x. destruct nv as [|x nv]; [exists c'; split; [reflexivity|exact Hc]|].
  match goal with |- context [parse XA ?s] => set (s0 := s) end.
  destruct (parse XA s0) as [v|] eqn:E; [|exact I]. destruct (HX _ _ E) as (w & -> & K). exists w. split; [reflexivity|exact K].
Qed.
Lemma sim_term_finish nv c c' sx sc : r c c' -> sum_rel tmr (term_finish OA XA nv c sx sc) (term_finish OB XB nv c' sx sc).
Proof.
  intros Hc. unfold term_finish. destruct sx.
  - destruct nv as [|x nv].
    + destruct sc; [exact I|]. eexists. split; [reflexivity|]. eapply sim_term_new; eassumption.
    + destruct (parse_usize (x :: nv)); [|exact I]. eexists. split; [reflexivity|]. eapply sim_term_new; eassumption.
  - destruct (parse XA nv) as [v|] eqn:E; [|exact I]. destruct (HX _ _ E) as (w & -> & K). eexists. split; [reflexivity|].
    eapply sim_term_new; eassumption.
Qed.
Lemma sim_term_loop s : forall nv c c' sx sc, r c c' -> sum_rel tmr (term_loop OA XA s nv c sx sc) (term_loop OB XB s nv c' sx sc).
Proof.
  induction s as [|x s IH]; intros nv c c' sx sc Hc; cbn [term_loop]; [apply sim_term_finish, Hc|].
  destruct (is_sep x); [apply IH, Hc|]. destruct (is_numch x); [apply IH, Hc|].
  destruct (x =? ch "x")%N.
  - destruct sx; [exact I|]. pose proof (sim_coeff_at_x nv c c' Hc) as K. destruct (coeff_at_x XA nv c) as [v|]; [|exact I].
    destruct K as (w & -> & K). apply IH, K.
  - destruct (x =? ch "^")%N; [|exact I]. destruct sc; [exact I|]. destruct sx; [|exact I]. apply IH, Hc.
Qed.
Lemma sim_from_str_loop s rs : forall p q, R p q -> pres cap R (from_str_loop OA XA SA s rs p) (from_str_loop OB XB SB s rs q).
Proof.
  induction rs as [|[a b] rs IH]; intros p q Hp; cbn [from_str_loop]; [left; exists q; split; [reflexivity|exact Hp]|].
  destruct (Strs.slice s a b) as [tok| |]; try exact I. cbn [bind]. unfold term_from_str.
  pose proof (sim_term_loop tok [] _ _ false false (sm_one _ _ _ _ S)) as K.
  destruct (term_loop OA XA tok [] (one OA) false false) as [t|e]; [|exact I]. destruct K as (t' & -> & K).
  destruct t as [|c d], t' as [|c' d']; simpl in K; try contradiction; [apply IH, Hp|]. destruct K as [K <-].
  pose proof (HA p q c c' d Hp K) as M. destruct (s_add SA p c d) as [[p' o]| |]; try exact I. cbn [bind snd fst].
  destruct o; [exact I|]. destruct M as [([q' o'] & -> & Hq & Ho)|(Hc & ->)]; cbn [bind snd fst] in *.
  - subst o'. apply IH, Hq.
  - destruct (from_str_loop OA XA SA s rs p') as [[?|?]| |]; simpl; auto.
Qed.
Lemma sim_poly_from_str p q s : R p q -> pres cap R (poly_from_str OA XA SA p s) (poly_from_str OB XB SB q s).
Proof.
  intros H. unfold poly_from_str. destruct (tok_ranges _ _) as [rs| |]; try exact I. cbn [bind].
  destruct rs; [exact I|]. apply sim_from_str_loop, H.
Qed.
End Sink.

(** ** output *)
Section Show.
Context (XA : txt A) (XB : txt B).
Hypothesis HX : forall x y, r x y -> show XA x = show XB y.

Lemma sim_leading_term c c' d : r c c' -> leading_term OA XA c d = leading_term OB XB c' d.
Proof.
  intros H. unfold leading_term, is_one. rewrite (HX _ _ H), (sm_neg_one _ _ _ _ S _ _ H), (sm_eqb _ _ _ _ S _ _ _ _ H (sm_one _ _ _ _ S)).
  reflexivity.
Qed.
Lemma sim_trailing_term c c' d : r c c' -> rr eq (trailing_term OA XA c d) (trailing_term OB XB c' d).
Proof.
  intros H. unfold trailing_term, is_one. rewrite (sm_is_pos _ _ _ _ S _ _ H). eapply rres_bind; [apply (sm_absv _ _ _ _ S), H|].
  intros a b Hab. rewrite (HX _ _ Hab), (sm_eqb _ _ _ _ S _ _ _ _ Hab (sm_one _ _ _ _ S)).
  destruct (d =? 0)%N; apply rres_ok; reflexivity.
Qed.
Lemma sim_show_terms ts ts' : Forall2 tr ts ts' -> rr eq (show_terms OA XA ts) (show_terms OB XB ts').
Proof.
  intros H. destruct H as [|[c d] [c' d'] ts ts' [H1 H2] H]; [apply rres_ok; reflexivity|]. simpl in *. subst d'.
  eapply (sim_foldM cap tr eq); [|exact H|apply sim_leading_term, H1].
  intros a b [x k] [y k'] -> [H3 H4]. simpl in *. subst k'.
  apply rres_bind_eq; [apply sim_trailing_term, H3|]. intros t. apply rres_ok. reflexivity.
Qed.
Lemma sim_dense_show l m : rl l m -> rr eq (dense_show OA XA l) (dense_show OB XB m).
Proof. intros H. unfold dense_show. eapply rres_bind; [eapply sim_dense_terms; eassumption|]. apply sim_show_terms. Qed.
Lemma sim_sparse_show l m : ml l m -> rr eq (sparse_show OA XA l) (sparse_show OB XB m).
Proof. intros H. unfold sparse_show. eapply sim_show_terms, sim_sparse_terms; eassumption. Qed.
Lemma sim_bino_show l m : bino_rel r l m -> rr eq (bino_show OA XA l) (bino_show OB XB m).
Proof. intros H. unfold bino_show. eapply rres_bind; [eapply sim_bino_terms; eassumption|]. apply sim_show_terms. Qed.
Lemma sim_trino_show l m : trino_rel r l m -> rr eq (trino_show OA XA l) (trino_show OB XB m).
Proof. intros H. unfold trino_show. eapply rres_bind; [eapply sim_trino_terms; eassumption|]. apply sim_show_terms. Qed.
Lemma sim_mono_show l m : mono_rel r l m -> mono_show OA XA l = mono_show OB XB m.
Proof.
  intros H. unfold mono_show. pose proof (sim_mono_as_term OA OB r cap S _ _ H) as K.
  destruct (mono_as_term OA l), (mono_as_term OB m); simpl in K; try contradiction; [reflexivity|].
  destruct K as [K <-]. apply sim_leading_term, K.
Qed.
Lemma sim_dense_integral_show l m : rl l m -> rr eq (dense_integral_show OA XA l) (dense_integral_show OB XB m).
Proof.
  intros H. unfold dense_integral_show, dense_is_zero. rewrite (sim_degree OA OB r cap S _ _ H).
  destruct (degree_is_zero _); [apply rres_ok; reflexivity|]. apply rres_bind_eq; [apply sim_dense_show, H|].
  intros s. apply rres_ok. reflexivity.
Qed.
Lemma sim_sparse_integral_show l m : ml l m -> rr eq (sparse_integral_show OA XA l) (sparse_integral_show OB XB m).
Proof.
  intros H. unfold sparse_integral_show, sparse_is_zero. rewrite (sim_sparse_degree OA OB r cap S _ _ H).
  destruct (degree_is_zero _); [apply rres_ok; reflexivity|]. apply rres_bind_eq; [apply sim_sparse_show, H|].
  intros s. apply rres_ok. reflexivity.
Qed.
End Show.
End Sim.

(** ** integer types *)
From Verif Require Import SimInst.
Local Open Scope Z_scope.

Lemma widen_show t u (x : int t) (y : int u) : same_int x y -> show (int_txt t) x = show (int_txt u) y.
Proof. intros H. cbn. rewrite H. reflexivity. Qed.

Lemma widen_checked t u z v : widens t u -> checked t z = Some v -> checked u z = Some v.
Proof.
  intros (H1 & H2 & _). unfold checked. destruct (in_range t z) eqn:E; [|discriminate]. intros K. injection K as <-.
  assert (in_range u z = true) as -> by (apply in_range_iff in E; apply in_range_iff; lia). reflexivity.
Qed.
Lemma widen_parse_digits t u sgn s : widens t u -> forall acc v, parse_digits t sgn acc s = Some v -> parse_digits u sgn acc s = Some v.
Proof.
  intros W. induction s as [|c s IH]; intros acc v; cbn [parse_digits]; [auto|].
  destruct (checked t (acc * 10)) as [m|] eqn:E; [|discriminate]. rewrite (widen_checked t u _ _ W E).
  destruct (to_digit c) as [x|]; [|discriminate].
  destruct (checked t (m + sgn * x)) as [w|] eqn:E2; [|discriminate]. rewrite (widen_checked t u _ _ W E2). apply IH.
Qed.
Lemma parse_digits_unsigned t s : signed t = false -> forall acc v, 0 <= acc -> parse_digits t 1 acc s = Some v -> forall c, c = ch "-" -> In c s -> False.
Proof.
  intros Ht. induction s as [|x s IH]; intros acc v Ha H c Hc Hin; [destruct Hin|]. cbn [parse_digits] in H.
  destruct (checked t (acc * 10)) as [m|] eqn:E; [|discriminate].
  assert (Hm : 0 <= m). { unfold checked in E. destruct (in_range t (acc * 10)); [|discriminate]. injection E as <-. lia. }
  destruct (to_digit x) as [d|] eqn:Ed; [|discriminate].
  destruct (checked t (m + 1 * d)) as [w|] eqn:E2; [|discriminate].
  assert (Hd : 0 <= d). { unfold to_digit in Ed. destruct (_ && _)%bool eqn:K; [|discriminate]. injection Ed as <-. lia. }
  assert (Hw : 0 <= w). { rewrite Z.mul_1_l in E2. unfold checked in E2. destruct (in_range t (m + d)); [|discriminate]. injection E2 as <-. lia. }
  destruct Hin as [Hin|Hin]; [|eapply IH; eassumption]. subst. discriminate Ed.
Qed.
Lemma widen_parse_Z t u s v : widens t u -> parse_Z t s = Some v -> parse_Z u s = Some v.
Proof.
  intros W. unfold parse_Z. destruct s as [|c s]; [discriminate|]. destruct s as [|c' s].
  - destruct (_ || _); [discriminate|]. apply widen_parse_digits, W.
  - destruct (c =? ch "+")%N; [apply widen_parse_digits, W|]. destruct (c =? ch "-")%N eqn:Ec; cbn [andb].
    + destruct (signed t) eqn:Et.
      * assert (signed u = true) as ->.
        { destruct W as (W1 & _). unfold imin in W1. rewrite Et in W1. destruct (signed u); [reflexivity|].
          assert (0 < 2 ^ (bits t - 1)) by (destruct t; reflexivity). lia. }
        apply widen_parse_digits, W.
      * intros H. exfalso. eapply (parse_digits_unsigned t _ Et 0 v); [lia|exact H|reflexivity|].
        left. apply N.eqb_eq, Ec.
    + apply widen_parse_digits, W.
Qed.
Lemma parse_Z_range t s v : parse_Z t s = Some v -> in_range t v = true.
Proof.
  assert (K : forall sgn s acc v, in_range t acc = true -> parse_digits t sgn acc s = Some v -> in_range t v = true).
  { clear. intros sgn s. induction s as [|c s IH]; intros acc v Ha H; cbn [parse_digits] in H; [congruence|].
    destruct (checked t (acc * 10)) as [m|]; [|discriminate]. destruct (to_digit c) as [x|]; [|discriminate].
    destruct (checked t (m + sgn * x)) as [w|] eqn:E2; [|discriminate]. apply (IH w v); [|exact H].
    unfold checked in E2. destruct (in_range t (m + sgn * x)) eqn:E3; [|discriminate]. injection E2 as <-. exact E3. }
  assert (K0 : in_range t 0 = true) by (apply in_range_iff; pose proof (imin_max t); lia).
  unfold parse_Z. destruct s as [|c s]; [discriminate|]. destruct s as [|c' s].
  - destruct (_ || _); [discriminate|]. apply K, K0.
  - destruct (c =? ch "+")%N; [apply K, K0|]. destruct (_ && _); apply K, K0.
Qed.
Lemma widen_parse t u s v : widens t u -> parse (int_txt t) s = Some v -> exists w, parse (int_txt u) s = Some w /\ same_int v w.
Proof.
  intros W H. cbn in *. destruct (parse_Z t s) as [z|] eqn:E; [|discriminate]. injection H as <-.
  rewrite (widen_parse_Z t u s z W E). eexists. split; [reflexivity|]. apply mk_widen; [exact W|]. eapply parse_Z_range, E.
Qed.
