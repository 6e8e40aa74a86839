(** Property C93: spacing, grouping characters and a leading plus do not change what a text means. *)

From Coq Require Import String Ascii List NArith ZArith Lia Bool Arith.
From Coq Require Import ZifyBool ZifyNat ZifyN.
From Verif Require Import Base Num Spec SpecFacts Laws Terms Dense Sparse Mono Bino Trino.
From Verif Require Import PolyMath MutFacts Strs StrFacts P_Str P_Str2.
Import ListNotations.

(** ** Specification *)

(** The text without its spaces, and without its spaces, commas and underscores. *)
Definition no_spaces (s : str) : str := filter (fun c => negb (c =? 32)%N) s.
(** The characters of a polynomial. *)
Definition poly_char (c : N) : bool := sep_char c || num_char c || (c =? 120)%N || (c =? 94)%N.
(** The text begins, after spaces, with a character that is no separator and no blank; or,
    after any separators, with one that is not a sign either. *)
Definition plain_start (s : str) : Prop := exists w c u, s = w ++ c :: u /\ sep_char c = false /\ blank_char c = false /\
  (Forall (fun x => x = 32%N) w \/ Forall (fun x => sep_char x = true) w /\ sign_char c = false).

(** ** Lemmas *)

Lemma clean_app a b : clean (a ++ b) = clean a ++ clean b.
Proof. apply filter_app. Qed.
Lemma clean_sep c : is_sep c = true -> clean [c] = [].
Proof. intros H. unfold clean. cbn. rewrite H. reflexivity. Qed.
Lemma sep_not_sign c : is_sep c = true -> is_sign c = false.
Proof. unfold is_sep, is_sign. change (ch " ") with 32%N. change (ch ",") with 44%N. change (ch "_") with 95%N. change (ch "+") with 43%N. change (ch "-") with 45%N. lia. Qed.
Lemma clean_sign c : is_sign c = true -> clean [c] = [c].
Proof. intros H. unfold clean. cbn. destruct (is_sep c) eqn:E; [|reflexivity]. apply sep_not_sign in E. congruence. Qed.
Lemma snoc_nonempty {A} (l : list A) x : l ++ [x] <> [].
Proof. destruct l; discriminate. Qed.

Lemma split_true_clean (p : N -> bool) (Hp : forall c, p c = false -> is_sep c = true) s : forall cur cur', cur <> [] -> cur' <> [] -> clean cur = clean cur' ->
  map clean (split_tok true cur s) = map clean (split_tok true cur' (filter p s)).
Proof.
  induction s as [|c s IH]; intros cur cur' H1 H2 E; cbn [filter split_tok].
  - destruct cur; [congruence|]. destruct cur'; [congruence|]. cbn [map]. rewrite E. reflexivity.
  - destruct (p c) eqn:Pc.
    + cbn [split_tok]. destruct (is_sign c).
      * cbn [map]. rewrite E. f_equal. apply IH; try discriminate. reflexivity.
      * cbn [orb]. apply IH; try apply snoc_nonempty. rewrite !clean_app, E. reflexivity.
    + apply Hp in Pc. rewrite (sep_not_sign c Pc). cbn [orb]. apply IH; [apply snoc_nonempty|exact H2|]. rewrite clean_app, (clean_sep c Pc), app_nil_r. exact E.
Qed.
Lemma split_false_clean (p : N -> bool) (Hp : forall c, p c = false -> is_sep c = true /\ is_ws c = true) s : forall cur cur', (cur' <> [] -> cur <> []) -> clean cur = clean cur' ->
  (cur' <> [] \/ filter p s <> []) -> map clean (split_tok false cur s) = map clean (split_tok false cur' (filter p s)).
Proof.
  assert (Hp' : forall c, p c = false -> is_sep c = true) by (intros; apply Hp; assumption).
  induction s as [|c s IH]; intros cur cur' H1 E H2; cbn [filter split_tok].
  - destruct H2 as [H2|H2]; [|cbn in H2; congruence]. specialize (H1 H2). destruct cur; [congruence|]. destruct cur'; [congruence|]. cbn [map]. rewrite E. reflexivity.
  - destruct (p c) eqn:Pc.
    + cbn [split_tok]. destruct (is_sign c).
      * apply (split_true_clean p Hp'); try apply snoc_nonempty. rewrite !clean_app, E. reflexivity.
      * destruct (is_ws c); cbn [orb negb].
        -- apply IH; [intros _; apply snoc_nonempty|rewrite !clean_app, E; reflexivity|left; apply snoc_nonempty].
        -- apply (split_true_clean p Hp'); try apply snoc_nonempty. rewrite !clean_app, E. reflexivity.
    + destruct (Hp c Pc) as [Ps Pw]. rewrite (sep_not_sign c Ps), Pw. cbn [orb negb]. apply IH; [intros _; apply snoc_nonempty|rewrite clean_app, (clean_sep c Ps), app_nil_r; exact E|].
      cbn [filter] in H2. rewrite Pc in H2. exact H2.
Qed.

Lemma parse_all_clean {T} (O : num T) (X : txt T) toks : parse_all O X toks = parse_all O X (map clean toks).
Proof.
  induction toks as [|k ks IH]; [reflexivity|]. cbn [map parse_all]. unfold term_from_str. rewrite <- (term_loop_clean O X k), <- IH. reflexivity.
Qed.
(** Only the cleaned tokens matter. *)
Lemma same_tokens {T P} (O : num T) (X : txt T) (S : mutpoly T P) z s s' : s <> [] -> s' <> [] -> map clean (tokens s) = map clean (tokens s') ->
  poly_from_str O X S z s = poly_from_str O X S z s'.
Proof.
  intros H H' E. rewrite !poly_from_str_spec, (parse_all_clean O X (tokens s)), (parse_all_clean O X (tokens s')), E.
  destruct s; [congruence|]. destruct s'; [congruence|]. reflexivity.
Qed.

(** Once the first character of substance is a plain one, separators before it do not matter. *)
Lemma split_false_seps w : forall cur c s, Forall (fun x => is_sep x = true) w -> is_sign c = false -> is_ws c = false ->
  exists cur', cur' <> [] /\ clean cur' = clean (cur ++ [c]) /\ split_tok false cur (w ++ c :: s) = split_tok true cur' s.
Proof.
  assert (G : forall w cur c s, Forall (fun x => is_sep x = true) w -> is_sign c = false ->
            exists cur', cur' <> [] /\ clean cur' = clean (cur ++ [c]) /\ split_tok true cur (w ++ c :: s) = split_tok true cur' s).
  { clear. induction w as [|x w IH]; intros cur c s H Hs.
    - exists (cur ++ [c]). split; [apply snoc_nonempty|]. split; [reflexivity|]. cbn. rewrite Hs. reflexivity.
    - inversion H; subst. cbn [app split_tok]. rewrite (sep_not_sign x) by assumption. cbn [orb].
      destruct (IH (cur ++ [x]) c s H3 Hs) as (cur' & A & B & C). exists cur'. split; [exact A|]. split; [|exact C].
      rewrite B, !clean_app, (clean_sep x), app_nil_r by assumption. reflexivity. }
  induction w as [|x w IH]; intros cur c s H Hs Hw.
  - exists (cur ++ [c]). split; [apply snoc_nonempty|]. split; [reflexivity|]. cbn. rewrite Hs, Hw. reflexivity.
  - inversion H; subst. cbn [app split_tok]. rewrite (sep_not_sign x) by assumption.
    assert (B0 : clean ((cur ++ [x]) ++ [c]) = clean (cur ++ [c])) by (rewrite !clean_app, (clean_sep x), app_nil_r by assumption; reflexivity).
    destruct (is_ws x); cbn [orb negb].
    + destruct (IH (cur ++ [x]) c s H3 Hs Hw) as (cur' & A & B & C). exists cur'. rewrite <- B0. auto.
    + destruct (G w (cur ++ [x]) c s H3 Hs) as (cur' & A & B & C). exists cur'. rewrite <- B0. auto.
Qed.

Lemma term_loop_allowed {T} (O : num T) (X : txt T) s : forall v c sx sc t, term_loop O X s v c sx sc = inl t -> Forall (fun x => poly_char x = true) s.
Proof.
  induction s as [|x s IH]; intros v c sx sc t H; [constructor|]. cbn [term_loop] in H. unfold poly_char. chars.
  change (ch "x") with 120%N in H. change (ch "^") with 94%N in H.
  assert (K : forall v c sx sc, term_loop O X s v c sx sc = inl t -> Forall (fun x => poly_char x = true) s) by eauto.
  destruct (is_sep x) eqn:E1; [constructor; [unfold poly_char; chars; rewrite E1; reflexivity|eauto]|].
  destruct (is_numch x) eqn:E2; [constructor; [unfold poly_char; chars; rewrite E1, E2; reflexivity|eauto]|].
  destruct (x =? 120)%N eqn:E3.
  - destruct sx; [discriminate H|]. destruct (coeff_at_x X v c); [|discriminate H]. constructor; [unfold poly_char; chars; rewrite E1, E2, E3; reflexivity|eauto].
  - destruct (x =? 94)%N eqn:E4; [|discriminate H]. destruct sc; [discriminate H|]. destruct (negb sx); [discriminate H|].
    constructor; [unfold poly_char; chars; rewrite E1, E2, E3, E4; reflexivity|eauto].
Qed.
Lemma parse_all_allowed {T} (O : num T) (X : txt T) toks : snd (parse_all O X toks) = None -> Forall (fun x => poly_char x = true) (concat toks).
Proof.
  induction toks as [|k ks IH]; intros H; [constructor|]. cbn [parse_all] in H. cbn [concat]. apply Forall_app.
  destruct (term_from_str O X k) as [t|e] eqn:E; [|discriminate H]. split; [apply (term_loop_allowed O X k _ _ _ _ _ E)|]. apply IH. destruct t; exact H.
Qed.

(** ** Theorems *)

(** Spaces never matter: the same polynomial, the same error, the same panic. *)
Theorem C93_spaces : forall T P (O : num T) (X : txt T) (S : mutpoly T P) z s, no_spaces s <> [] ->
  poly_from_str O X S z s = poly_from_str O X S z (no_spaces s).
Proof.
  intros T P O X S z s H. apply same_tokens; [intros ->; apply H; reflexivity|exact H|]. apply split_false_clean; auto.
  intros c Hc. apply negb_false_iff, N.eqb_eq in Hc. subst c. split; reflexivity.
Qed.

(** Nor do commas and underscores, except in front of the first sign. *)
Theorem C93_separators : forall T P (O : num T) (X : txt T) (S : mutpoly T P) z s, plain_start s ->
  poly_from_str O X S z s = poly_from_str O X S z (no_seps s).
Proof.
  intros T P O X S z s (w & c & u & -> & Hc & Hb & H). change (no_seps (w ++ c :: u)) with (clean (w ++ c :: u)). chars.
  assert (W : Forall (fun x => is_sep x = true) w) by (destruct H as [H|[H _]]; [eapply Forall_impl; [|exact H]; intros x ->; reflexivity|exact H]).
  assert (E : clean (w ++ c :: u) = c :: clean u).
  { rewrite clean_app. assert (clean w = []) as ->; [|cbn; rewrite Hc; reflexivity].
    clear H. induction W as [|x w Hx _ IH]; [reflexivity|]. cbn. rewrite Hx. exact IH. }
  rewrite E. apply same_tokens; [destruct w; discriminate|discriminate|].
  assert (Hp : forall c, negb (is_sep c) = false -> is_sep c = true) by (intros x; apply negb_false_iff).
  unfold tokens. destruct (is_sign c) eqn:Es.
  - destruct H as [H|[_ H]]; [|congruence]. rewrite split_blank by (unfold blank; apply forallb_forall; intros x Hx; rewrite Forall_forall in H; rewrite (H x Hx); reflexivity).
    cbn [split_tok app]. rewrite Es. apply (split_true_clean _ Hp); [apply snoc_nonempty|discriminate|].
    rewrite clean_app. assert (clean w = []) as ->; [|reflexivity]. clear -W. induction W as [|x w Hx _ IH]; [reflexivity|]. cbn. rewrite Hx. exact IH.
  - destruct (split_false_seps w [] c u W Es Hb) as (cur & A & B & ->). cbn [split_tok app]. rewrite Es, Hb. cbn [orb negb].
    apply (split_true_clean _ Hp); [exact A|discriminate|exact B].
Qed.

(** In front of the first sign they are an error. *)
Theorem C93_leading_separator : forall T P (O : num T) (X : txt T) (S : mutpoly T P) z w c u, parse X [] = None ->
  Forall (fun x => sep_char x = true) w -> Exists (fun x => blank_char x = false) w -> sign_char c = true ->
  poly_from_str O X S z (w ++ c :: u) = Ok (inr (TermFromString CoeffCouldNotBeParsed)).
Proof.
  intros T P O X S z w c u H0 W Ex Hs. chars.
  assert (G : forall w cur, Forall (fun x => is_sep x = true) w -> split_tok true cur (w ++ c :: u) = (cur ++ w) :: split_tok true [c] u).
  { clear -Hs. induction w as [|x w IH]; intros cur H; cbn [app split_tok]; [rewrite Hs, app_nil_r; reflexivity|].
    inversion H; subst. rewrite (sep_not_sign x) by assumption. cbn [orb]. rewrite IH by assumption. rewrite <- app_assoc. reflexivity. }
  assert (E : forall w cur, Forall (fun x => is_sep x = true) w -> Exists (fun x => is_ws x = false) w ->
            split_tok false cur (w ++ c :: u) = (cur ++ w) :: split_tok true [c] u).
  { clear w W Ex. induction w as [|x w IH]; intros cur H K; [inversion K|]. inversion H; subst. cbn [app split_tok]. rewrite (sep_not_sign x) by assumption.
    destruct (is_ws x) eqn:Ew; cbn [orb negb].
    - rewrite IH; [rewrite <- app_assoc; reflexivity|assumption|]. inversion K; subst; [congruence|assumption].
    - rewrite G by assumption. rewrite <- app_assoc. reflexivity. }
  rewrite poly_from_str_spec. unfold tokens. rewrite (E w [] W Ex). cbn [app parse_all].
  assert (F : term_from_str O X w = inr CoeffCouldNotBeParsed).
  { unfold term_from_str. rewrite <- (app_nil_r w), term_loop_sep by (apply forallb_forall; rewrite Forall_forall in W; exact W). cbn. rewrite H0. reflexivity. }
  rewrite F. destruct (w ++ c :: u) eqn:K; [destruct w; discriminate|reflexivity].
Qed.

(** So the full statement, "separators never matter", is false: ",-x" against "-x". *)
Theorem C93_separators_refuted : forall chk t, signed t = true -> exists s, 
  dense_from_str (int_num chk t) (int_txt t) s = Ok (inr (TermFromString CoeffCouldNotBeParsed)) /\
  dense_from_str (int_num chk t) (int_txt t) (no_seps s) = Ok (inl [mk_int t (-1); mk_int t 0]).
Proof.
  intros chk t H. exists (lit ",-x"). destruct chk, t; try discriminate H; split; vm_compute; try reflexivity; repeat f_equal; apply int_eq; reflexivity.
Qed.

(** Any other character, in particular any other blank, makes the text unacceptable. *)
Theorem C93_alphabet : forall T P (O : num T) (X : txt T) (S : mutpoly T P) z s p,
  poly_from_str O X S z s = Ok (inl p) -> Forall (fun c => poly_char c = true) s.
Proof.
  intros T P O X S z s p H. rewrite poly_from_str_spec in H. destruct s as [|c s]; [discriminate H|]. rewrite <- (tokens_concat (c :: s)).
  apply (parse_all_allowed O X). destruct (apply_terms (s_add S) (fst (parse_all O X (tokens (c :: s)))) z) as [[q [e|]]| |]; cbn [bind fst snd] in H; try discriminate H.
  destruct (snd (parse_all O X (tokens (c :: s)))); [discriminate H|reflexivity].
Qed.

(** *** A leading plus *)
Lemma split_true_prefix a s : forall cur, cur <> [] ->
  split_tok true (a ++ cur) s = match split_tok true cur s with [] => [] | k :: ks => (a ++ k) :: ks end.
Proof.
  induction s as [|c s IH]; intros cur H; cbn [split_tok].
  - destruct cur; [congruence|]. destruct (a ++ n :: cur) eqn:E; [destruct a; discriminate|reflexivity].
  - destruct (is_sign c); [reflexivity|]. cbn [orb]. rewrite <- app_assoc. apply IH, snoc_nonempty.
Qed.
Lemma parse_plus t d v : is_digit d = true -> parse (int_txt t) (ch "+" :: d :: v) = parse (int_txt t) (d :: v).
Proof.
  intros H. cbn [parse int_txt]. assert (E : parse_Z t (ch "+" :: d :: v) = parse_Z t (d :: v)); [|rewrite E; reflexivity].
  destruct (digit_not_sign d H) as (A & _). unfold is_sign in A. apply orb_false_iff in A. destruct A as [A B].
  unfold parse_Z. change ((ch "+" =? ch "+")%N) with true. rewrite A, B. cbn [orb andb]. destruct v; reflexivity.
Qed.
Lemma term_loop_plus chk t s : forall d v one sc, is_digit d = true ->
  term_loop (int_num chk t) (int_txt t) s (ch "+" :: d :: v) one false sc = term_loop (int_num chk t) (int_txt t) s (d :: v) one false sc.
Proof.
  induction s as [|x s IH]; intros d v one sc H; cbn [term_loop].
  - unfold term_finish. rewrite (parse_plus t d v H). reflexivity.
  - destruct (is_sep x); [apply IH, H|]. destruct (is_numch x); [apply (IH d (v ++ [x]) one sc H)|]. destruct (x =? ch "x")%N.
    + unfold coeff_at_x. rewrite (parse_plus t d v H). destruct (digit_not_sign d H) as (A & _). unfold is_sign in A. apply orb_false_iff in A. destruct A as [A B].
      destruct v as [|y v]; [rewrite A, B; reflexivity|reflexivity].
    + destruct (x =? ch "^")%N; [|reflexivity]. destruct sc; reflexivity.
Qed.
Lemma term_plus chk t c s : (is_digit c || (c =? ch "x")%N) = true ->
  term_from_str (int_num chk t) (int_txt t) (ch "+" :: c :: s) = term_from_str (int_num chk t) (int_txt t) (c :: s).
Proof.
  intros H. unfold term_from_str. destruct (is_digit c) eqn:D.
  - destruct (digit_not_sign c D) as (_ & A & B & _). cbn [term_loop]. change (is_sep (ch "+")) with false. change (is_numch (ch "+")) with true. rewrite A, B. cbn [app].
    apply (term_loop_plus chk t s c [] (one (int_num chk t)) false D).
  - cbn [orb] in H. apply N.eqb_eq in H. subst c. cbn [term_loop]. change (is_sep (ch "+")) with false. change (is_numch (ch "+")) with true.
    change (is_sep (ch "x")) with false. change (is_numch (ch "x")) with false. change (ch "x" =? ch "x")%N with true. cbn [app coeff_at_x].
    change ((ch "+" =? ch "-")%N || (ch "+" =? ch "+")%N) with true. cbn iota.
    assert (E : parse (int_txt t) [ch "+"; ch "1"] = Some (one (int_num chk t))) by (destruct t; reflexivity). rewrite E. reflexivity.
Qed.

(** In front of a digit or x, a plus may be written or left out. *)
Theorem C93_leading_plus : forall P chk t (S : mutpoly (int t) P) z c s, is_digit c = true \/ c = ch "x" ->
  poly_from_str (int_num chk t) (int_txt t) S z (ch "+" :: c :: s) = poly_from_str (int_num chk t) (int_txt t) S z (c :: s).
Proof.
  intros P chk t S z c s H. assert (Hc : (is_digit c || (c =? ch "x")%N) = true) by (destruct H as [->| ->]; reflexivity).
  assert (Hs : is_sign c = false /\ is_ws c = false) by (destruct H as [H| ->]; [apply digit_not_sign in H; tauto|split; reflexivity]). destruct Hs as [Hs Hw].
  rewrite !poly_from_str_spec. unfold tokens. cbn [split_tok]. change (is_sign (ch "+")) with true. cbn iota. rewrite Hs, Hw. cbn [orb negb app].
  change [ch "+"; c] with ([ch "+"] ++ [c]). rewrite split_true_prefix by discriminate.
  destruct (split_true_shape s [c]) as (u & ks & -> & _); [discriminate|]. cbn [app parse_all]. rewrite (term_plus chk t c u Hc). reflexivity.
Qed.

Example C93_case : let p := dense_from_str (int_num true I32) (int_txt I32) in
  rmap (fun r => match r with inl l => map ival l | inr _ => [] end) (p (lit " 1 000 x ^ 2 - 3,000 + _5 x")) = Ok [1000; 5; -3000]%Z /\
  no_spaces (lit " 1 000 x ^ 2 - 3,000 + _5 x") = lit "1000x^2-3,000+_5x" /\ plain_start (lit " 1 000 x ^ 2 - 3,000 + _5 x") /\
  plain_start (lit "__7x") /\ p (lit "1,,x") = p (lit "x") /\ p (lit "+7x") = p (lit "7x").
Proof.
  split; [vm_compute; reflexivity|]. split; [reflexivity|]. split.
  - exists (lit " "), (ch "1"), (lit " 000 x ^ 2 - 3,000 + _5 x"). split; [reflexivity|]. split; [reflexivity|]. split; [reflexivity|]. left. repeat constructor.
  - split; [|split; vm_compute; reflexivity]. exists (lit "__"), (ch "7"), (lit "x"). split; [reflexivity|]. split; [reflexivity|]. split; [reflexivity|]. right. split; [repeat constructor|reflexivity].
Qed.

Print Assumptions C93_spaces.
Print Assumptions C93_separators.
Print Assumptions C93_leading_separator.
Print Assumptions C93_separators_refuted.
Print Assumptions C93_alphabet.
Print Assumptions C93_leading_plus.
