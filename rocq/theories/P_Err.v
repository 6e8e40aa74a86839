(** Property C79: which error a text gets, and what the error says. *)

From Coq Require Import String Ascii List NArith ZArith Lia Bool Arith.
From Coq Require Import ZifyBool ZifyNat ZifyN.
From Verif Require Import Base Num Laws Terms Dense DenseMut Sparse Mono Bino Trino PolyMath Strs StrFacts StrShow P_Str P_Str2.
Import ListNotations.
Local Open Scope nat_scope.

(** err.rs 28-45: Display of TermFromStringError *)
Definition term_err_show (e : term_err) : str :=
  match e with
  | MoreThanOneX => lit "More than one occurance of 'x' in str"
  | CoeffCouldNotBeParsed => lit "Coeff could not be parsed."
  | CaretWithoutXInFront => lit "^ seen without x in front"
  | UnexpectedChar c => lit "Unexpected char (" ++ [c] ++ lit ") (legal characters include +, -, ., x, ^, 0..9)."
  | MultipleCarets => lit "^ appears more than once."
  | CaretWithoutDegree => lit "^ without ensuing degree!"
  | DegreeCouldNotBeParsed => lit "Degree could not be parsed"
  end.

(** ** Which error *)

Section Errors.
Context {T : Type} (O : num T) (X : txt T).

(** The number written in front of x cannot be read. *)
Definition no_coeff (n : str) : Prop := numeric n /\ n <> [] /\
  match n with
  | [c] => if sign_char c then parse X [c; ch "1"] = None else parse X n = None
  | _ => parse X n = None
  end.

(** A text, without separators, in which nothing is wrong so far: its coefficient and what has been
    written of the exponent. *)
Inductive opening : str -> Prop :=
| op_num n : numeric n -> opening n
| op_x n v e : coeff_text O X n v -> numeric e -> opening (n ++ lit "x" ++ e)
| op_caret n v e1 e2 : coeff_text O X n v -> numeric e1 -> numeric e2 -> opening (n ++ lit "x" ++ e1 ++ lit "^" ++ e2).

(** The first thing that is wrong with a text without separators. *)
Inductive term_error : str -> term_err -> Prop :=
| te_char p c r : opening p -> sep_char c = false -> num_char c = false -> c <> ch "x" -> c <> ch "^" -> term_error (p ++ c :: r) (UnexpectedChar c)
| te_two_x p r : opening p -> In (ch "x") p -> term_error (p ++ ch "x" :: r) MoreThanOneX
| te_two_carets p r : opening p -> In (ch "^") p -> term_error (p ++ ch "^" :: r) MultipleCarets
| te_caret_first p r : numeric p -> term_error (p ++ ch "^" :: r) CaretWithoutXInFront
| te_coeff p r : no_coeff p -> term_error (p ++ ch "x" :: r) CoeffCouldNotBeParsed
| te_const n : numeric n -> parse X n = None -> term_error n CoeffCouldNotBeParsed
| te_no_degree n v : coeff_text O X n v -> term_error (n ++ lit "x^") CaretWithoutDegree
| te_degree n v e : coeff_text O X n v -> numeric e -> e <> [] -> parse_usize e = None -> term_error (n ++ lit "x" ++ e) CoeffCouldNotBeParsed
| te_degree_caret n v e1 e2 : coeff_text O X n v -> numeric e1 -> numeric e2 -> e1 ++ e2 <> [] -> parse_usize (e1 ++ e2) = None ->
    term_error (n ++ lit "x" ++ e1 ++ lit "^" ++ e2) CoeffCouldNotBeParsed.

Lemma numeric_app a b : numeric (a ++ b) <-> numeric a /\ numeric b.
Proof. unfold numeric. rewrite forallb_app. apply andb_true_iff. Qed.
Lemma numeric_not_in s c : numeric s -> num_char c = false -> ~ In c s.
Proof. unfold numeric. rewrite forallb_forall. intros H K I. apply H in I. congruence. Qed.

(** The loop after an opening. *)
Lemma loop_opening p r : opening p ->
  (numeric p /\ term_loop O X (p ++ r) [] (one O) false false = term_loop O X r p (one O) false false) \/
  (exists n v e, coeff_text O X n v /\ numeric e /\ p = n ++ lit "x" ++ e /\
     term_loop O X (p ++ r) [] (one O) false false = term_loop O X r e v true false) \/
  (exists n v e1 e2, coeff_text O X n v /\ numeric e1 /\ numeric e2 /\ p = n ++ lit "x" ++ e1 ++ lit "^" ++ e2 /\
     term_loop O X (p ++ r) [] (one O) false false = term_loop O X r (e1 ++ e2) v true true).
Proof.
  intros [n Hn|n v e Hc He|n v e1 e2 Hc H1 H2].
  - left. split; [exact Hn|]. rewrite term_loop_num by exact Hn. reflexivity.
  - right; left. exists n, v, e. repeat (split; [assumption || reflexivity|]). destruct (coeff_text_at O X n v Hc) as [Hn Ha].
    rewrite <- app_assoc, term_loop_num by exact Hn. change ((lit "x" ++ e) ++ r) with (ch "x" :: e ++ r). cbn [app].
    rewrite term_loop_x, Ha, term_loop_num by exact He. reflexivity.
  - right; right. exists n, v, e1, e2. repeat (split; [assumption || reflexivity|]). destruct (coeff_text_at O X n v Hc) as [Hn Ha].
    rewrite <- app_assoc, term_loop_num by exact Hn. rewrite <- !app_assoc. change (lit "x" ++ e1 ++ lit "^" ++ e2 ++ r) with (ch "x" :: e1 ++ ch "^" :: e2 ++ r).
    cbn [app]. rewrite term_loop_x, Ha, term_loop_num by exact H1. rewrite term_loop_caret, term_loop_num by exact H2. reflexivity.
Qed.

Lemma loop_char c r v w sx sc : sep_char c = false -> num_char c = false -> c <> ch "x" -> c <> ch "^" ->
  term_loop O X (c :: r) v w sx sc = inr (UnexpectedChar c).
Proof.
  intros H1 H2 H3 H4. chars. cbn [term_loop]. rewrite H1, H2. apply N.eqb_neq in H3, H4. rewrite H3, H4. reflexivity.
Qed.

Lemma no_coeff_at n : no_coeff n -> coeff_at_x X n (one O) = inr CoeffCouldNotBeParsed.
Proof.
  intros (_ & H0 & H). destruct n as [|c n]; [congruence|]. unfold coeff_at_x. destruct n as [|c' n].
  - chars. unfold is_sign in H. rewrite orb_comm. destruct ((c =? ch "+")%N || (c =? ch "-")%N); rewrite H; reflexivity.
  - rewrite H. reflexivity.
Qed.

Lemma term_error_sound s e : term_error s e -> term_from_str O X s = inr e.
Proof.
  unfold term_from_str.
  intros [p c r Hp A1 A2 A3 A4|p r Hp Hi|p r Hp Hi|p r Hp|p r Hp|n Hn E|n v Hc|n v e' Hc He H0 Hd|n v e1 e2 Hc H1 H2 H0 Hd].
  - destruct (loop_opening p (c :: r) Hp) as [(_ & ->)|[(n & v & e' & _ & _ & _ & ->)|(n & v & e1 & e2 & _ & _ & _ & _ & ->)]]; apply loop_char; assumption.
  - destruct (loop_opening p (ch "x" :: r) Hp) as [(Hn & _)|[(n & v & e' & _ & _ & _ & ->)|(n & v & e1 & e2 & _ & _ & _ & _ & ->)]]; try reflexivity.
    destruct (numeric_not_in p (ch "x") Hn eq_refl Hi).
  - destruct (loop_opening p (ch "^" :: r) Hp) as [(Hn & _)|[(n & v & e' & Hc & He & -> & _)|(n & v & e1 & e2 & _ & _ & _ & _ & ->)]]; try reflexivity.
    + destruct (numeric_not_in p (ch "^") Hn eq_refl Hi).
    + exfalso. destruct (coeff_text_at O X n v Hc) as [Hn _]. rewrite !in_app_iff in Hi. destruct Hi as [Hi|[Hi|Hi]].
      * apply (numeric_not_in n (ch "^") Hn eq_refl Hi). * destruct Hi as [Hi|[]]. discriminate Hi. * apply (numeric_not_in e' (ch "^") He eq_refl Hi).
  - rewrite term_loop_num by exact Hp. reflexivity.
  - pose proof (no_coeff_at p Hp) as E. rewrite term_loop_num by (apply Hp). cbn [app]. rewrite term_loop_x, E. reflexivity.
  - rewrite <- (app_nil_r n), term_loop_num by exact Hn. cbn [app term_loop]. unfold term_finish. rewrite E. reflexivity.
  - destruct (coeff_text_at O X n v Hc) as [Hn Ha]. rewrite term_loop_num by exact Hn. change (lit "x^") with [ch "x"; ch "^"]. cbn [app].
    rewrite term_loop_x, Ha. reflexivity.
  - rewrite <- (app_nil_r (n ++ lit "x" ++ e')). destruct (coeff_text_at O X n v Hc) as [Hn Ha]. rewrite <- app_assoc, term_loop_num by exact Hn.
    change ((lit "x" ++ e') ++ []) with (ch "x" :: e' ++ []). cbn [app]. rewrite term_loop_x, Ha, term_loop_num by exact He.
    cbn [app term_loop]. unfold term_finish. rewrite Hd. destruct e'; [congruence|reflexivity].
  - destruct (coeff_text_at O X n v Hc) as [Hn Ha]. rewrite term_loop_num by exact Hn.
    change (lit "x" ++ e1 ++ lit "^" ++ e2) with (ch "x" :: e1 ++ ch "^" :: e2). cbn [app]. rewrite term_loop_x, Ha, term_loop_num by exact H1.
    rewrite term_loop_caret, <- (app_nil_r e2), term_loop_num by exact H2. cbn [app term_loop]. unfold term_finish. rewrite Hd.
    destruct (e1 ++ e2); [congruence|reflexivity].
Qed.

Lemma coeff_or_not n : numeric n -> (exists v, coeff_text O X n v) \/ no_coeff n.
Proof.
  intros Hn. destruct n as [|c n]; [left; eexists; constructor|]. destruct n as [|c' n].
  - destruct (sign_char c) eqn:Es.
    + destruct (parse X [c; ch "1"]) as [v|] eqn:E; [left; exists v; apply ct_sign; assumption|right]. split; [exact Hn|]. split; [discriminate|]. rewrite Es. exact E.
    + destruct (parse X [c]) as [v|] eqn:E; [left; exists v; apply ct_num; try assumption; [discriminate|intros x [= <-]; exact Es]|right].
      split; [exact Hn|]. split; [discriminate|]. rewrite Es. exact E.
  - destruct (parse X (c :: c' :: n)) as [v|] eqn:E; [left; exists v; apply ct_num; try assumption; discriminate|right]. split; [exact Hn|]. split; [discriminate|exact E].
Qed.

Lemma opening_decided p : opening p -> (exists t, term_text O X p t) \/ exists e, term_error p e.
Proof.
  intros [n Hn|n v e Hc He|n v e1 e2 Hc H1 H2].
  - destruct (parse X n) as [v|] eqn:E; [left; eexists; apply tt_const; eassumption|right; eexists; apply te_const; assumption].
  - destruct e as [|c e]; [left; eexists; apply tt_x; exact Hc|]. destruct (parse_usize (c :: e)) as [d|] eqn:E.
    + left. eexists. eapply tt_xn; try eassumption. discriminate.
    + right. eexists. eapply te_degree; try eassumption. discriminate.
  - destruct (e1 ++ e2) as [|c e] eqn:Ee.
    + apply app_eq_nil in Ee. destruct Ee as [-> ->]. right. eexists. apply (te_no_degree n v Hc).
    + assert (e1 ++ e2 <> []) by (rewrite Ee; discriminate). destruct (parse_usize (e1 ++ e2)) as [d|] eqn:E.
      * left. eexists. eapply tt_pow; eassumption.
      * right. eexists. eapply te_degree_caret; eassumption.
Qed.

Lemma numeric_snoc s c : numeric s -> num_char c = true -> numeric (s ++ [c]).
Proof. intros H K. apply numeric_app. split; [exact H|]. unfold numeric. cbn. rewrite K. reflexivity. Qed.

Lemma all_decided s : forall p, opening p -> forallb (fun c => negb (sep_char c)) s = true -> (exists t, term_text O X (p ++ s) t) \/ exists e, term_error (p ++ s) e.
Proof.
  induction s as [|c s IH]; intros p Hp Hs; [rewrite app_nil_r; apply opening_decided, Hp|]. cbn [forallb] in Hs. apply andb_true_iff in Hs. destruct Hs as [Hc Hs].
  apply negb_true_iff in Hc. replace (p ++ c :: s) with ((p ++ [c]) ++ s) by (rewrite <- app_assoc; reflexivity).
  assert (E : forall e, term_error (p ++ c :: s) e -> exists e, term_error ((p ++ [c]) ++ s) e) by (intros e K; exists e; rewrite <- app_assoc; exact K).
  destruct (num_char c) eqn:En.
  - apply IH; [|exact Hs]. destruct Hp as [n Hn|n v e Hv He|n v e1 e2 Hv H1 H2].
    + apply op_num, numeric_snoc; assumption.
    + rewrite <- !app_assoc. eapply op_x; [exact Hv|]. apply numeric_snoc; assumption.
    + rewrite <- !app_assoc. eapply op_caret; [exact Hv|exact H1|]. apply numeric_snoc; assumption.
  - destruct (N.eq_dec c (ch "x")) as [->|Hx].
    + pose proof Hp as Hp0. destruct Hp as [n Hn|n v e Hv He|n v e1 e2 Hv H1 H2].
      * destruct (coeff_or_not n Hn) as [[v Hv]|Hv]; [|right; apply (E _ (te_coeff _ _ Hv))]. apply IH; [|exact Hs].
        apply (op_x n v [] Hv). reflexivity.
      * right. apply (E MoreThanOneX). apply te_two_x; [exact Hp0|]. rewrite !in_app_iff. right; left. left. reflexivity.
      * right. apply (E MoreThanOneX). apply te_two_x; [exact Hp0|]. rewrite !in_app_iff. right; left. left. reflexivity.
    + destruct (N.eq_dec c (ch "^")) as [->|Hq].
      * pose proof Hp as Hp0. destruct Hp as [n Hn|n v e Hv He|n v e1 e2 Hv H1 H2].
        -- right. apply (E _ (te_caret_first n s Hn)).
        -- apply IH; [|exact Hs]. rewrite <- !app_assoc. apply (op_caret n v e [] Hv He). reflexivity.
        -- right. apply (E MultipleCarets). apply te_two_carets; [exact Hp0|]. rewrite !in_app_iff. right; right; right; left. left. reflexivity.
      * right. apply (E (UnexpectedChar c)). apply te_char; assumption.
Qed.
End Errors.

(** A text that is no term is rejected with exactly the error for the first thing wrong with it. *)
Theorem C79_term_error : forall T (O : num T) (X : txt T) s e,
  term_from_str O X s = inr e <-> term_error O X (no_seps s) e.
Proof.
  intros T O X s e. rewrite C36_separators_ignored. split; [|apply term_error_sound].
  intros H. destruct (all_decided O X (no_seps s) [] (op_num O X [] eq_refl)) as [(t & K)|(e' & K)].
  - apply forallb_forall. intros c Hc. unfold no_seps in Hc. apply filter_In in Hc. apply Hc.
  - cbn [app] in K. apply term_text_sound in K. congruence.
  - cbn [app] in K. pose proof (term_error_sound O X _ _ K) as K'. rewrite H in K'. injection K' as <-. exact K.
Qed.

Lemma no_seps_split s : forall a c r, no_seps s = a ++ c :: r -> exists a' r', s = a' ++ c :: r' /\ no_seps a' = a /\ no_seps r' = r.
Proof.
  induction s as [|x s IH]; intros a c r H; [destruct a; discriminate|]. unfold no_seps in H. cbn [filter] in H. fold (no_seps s) in H.
  destruct (sep_char x) eqn:E; cbn [negb] in H.
  - destruct (IH a c r H) as (a' & r' & -> & A & B). exists (x :: a'), r'. split; [reflexivity|]. split; [|exact B]. unfold no_seps. cbn [filter]. rewrite E. exact A.
  - destruct a as [|y a].
    + injection H as -> H. exists [], s. auto.
    + injection H as -> H. destruct (IH a c r H) as (a' & r' & -> & A & B). exists (y :: a'), r'. split; [reflexivity|]. split; [|exact B].
      unfold no_seps. cbn [filter]. rewrite E. cbn [negb]. fold (no_seps a'). rewrite A. reflexivity.
Qed.
Lemma in_no_seps c s : sep_char c = false -> (In c (no_seps s) <-> In c s).
Proof. intros H. unfold no_seps. rewrite filter_In, H. cbn. tauto. Qed.
Lemma no_seps_nil s : no_seps s = [] -> forallb sep_char s = true.
Proof.
  unfold no_seps. induction s as [|c s IH]; intros H; [reflexivity|]. cbn [filter forallb] in *. destruct (sep_char c); [apply IH, H|discriminate H].
Qed.

(** What a user learns from the error about the text. *)
Theorem C79_error_tells : forall T (O : num T) (X : txt T) s e, term_from_str O X s = inr e ->
  match e with
  | UnexpectedChar c => In c s /\ sep_char c = false /\ num_char c = false /\ c <> ch "x" /\ c <> ch "^"
  | MoreThanOneX => exists p r, s = p ++ ch "x" :: r /\ In (ch "x") p
  | MultipleCarets => exists p r, s = p ++ ch "^" :: r /\ In (ch "^") p
  | CaretWithoutXInFront => exists p r, s = p ++ ch "^" :: r /\ ~ In (ch "x") p
  | CaretWithoutDegree => exists p r, s = p ++ ch "^" :: r /\ In (ch "x") p /\ forallb sep_char r = true
  | CoeffCouldNotBeParsed => True
  | DegreeCouldNotBeParsed => False
  end.
Proof.
  intros T O X s e H. apply C79_term_error in H. remember (no_seps s) as t eqn:Et.
  destruct H as [p c r Hp A1 A2 A3 A4|p r Hp Hi|p r Hp Hi|p r Hp|p r Hp|n Hn E|n v Hc|n v e' Hc He H0 Hd|n v e1 e2 Hc H1 H2 H0 Hd]; try exact I.
  - split; [|auto]. apply in_no_seps; [exact A1|]. rewrite <- Et. apply in_elt.
  - symmetry in Et. destruct (no_seps_split s _ _ _ Et) as (a & b & -> & <- & _). exists a, b. split; [reflexivity|]. apply in_no_seps; [reflexivity|exact Hi].
  - symmetry in Et. destruct (no_seps_split s _ _ _ Et) as (a & b & -> & <- & _). exists a, b. split; [reflexivity|]. apply in_no_seps; [reflexivity|exact Hi].
  - symmetry in Et. destruct (no_seps_split s _ _ _ Et) as (a & b & -> & <- & _). exists a, b. split; [reflexivity|].
    intros K. apply (in_no_seps (ch "x")) in K; [|reflexivity]. apply (numeric_not_in _ (ch "x") Hp eq_refl K).
  - symmetry in Et. change (lit "x^") with ([ch "x"] ++ [ch "^"]) in Et. rewrite app_assoc in Et.
    destruct (no_seps_split s _ _ _ Et) as (a & b & -> & Ha & Hb). exists a, b. split; [reflexivity|]. split; [|apply no_seps_nil, Hb].
    apply (in_no_seps (ch "x")); [reflexivity|]. rewrite Ha. apply in_or_app. right. left. reflexivity.
Qed.

(** Different errors have different messages; the message shows the offending character. *)
Theorem C79_messages : (forall e1 e2, term_err_show e1 = term_err_show e2 -> e1 = e2) /\ (forall c, In c (term_err_show (UnexpectedChar c))).
Proof.
  split.
  - intros [] [] H; try reflexivity; try discriminate H. cbn in H. injection H as ->. reflexivity.
  - intros c. cbn [term_err_show]. apply in_or_app. right. left. reflexivity.
Qed.

(** The error of a whole polynomial is the error of its first bad term. *)
Theorem C79_polynomial_error : forall T (O : num T) (X : txt T) P (S : mutpoly T P) z s e,
  poly_from_str O X S z s = Ok (inr (TermFromString e)) ->
  exists toks k rest terms, is_tokenization s (toks ++ k :: rest) /\ parsed O X toks terms /\ term_error O X (no_seps k) e.
Proof.
  intros T O X P S z s e H. rewrite poly_from_str_spec in H. destruct s as [|x s]; [discriminate|]. remember (x :: s) as s0 eqn:Es. clear Es.
  destruct (parse_all_split O X (tokens s0)) as (t1 & rest & terms & Et & Hp & Hf & Hs).
  destruct (apply_terms (s_add S) (fst (parse_all O X (tokens s0))) z) as [[q [e'|]]| |]; cbn [bind snd fst] in H; try discriminate H.
  destruct (snd (parse_all O X (tokens s0))) as [e'|]; [|discriminate]. injection H as ->. destruct Hs as (k & rest' & -> & Hk).
  exists t1, k, rest', terms. split; [rewrite <- Et; apply tokens_tokenization|]. split; [exact Hp|]. apply C79_term_error, Hk.
Qed.

(** But an exponent that cannot be read is blamed on the coefficient, which is fine; the error for
    exponents is never returned. *)
Theorem C79_exponent_refuted : forall T (O : num T) (X : txt T),
  (forall n v e, coeff_text O X n v -> numeric e -> e <> [] -> parse_usize e = None ->
     term_from_str O X (n ++ lit "x^" ++ e) = inr CoeffCouldNotBeParsed) /\
  (forall s, term_from_str O X s <> inr DegreeCouldNotBeParsed) /\
  (exists s, term_from_str (int_num true I32) (int_txt I32) s = inr CoeffCouldNotBeParsed /\
     exists e, s = lit "3x^" ++ e /\ coeff_text (int_num true I32) (int_txt I32) (lit "3") (mk_int I32 3)).
Proof.
  intros T O X. split; [|split].
  - intros n v e Hv He H0 Hp. apply (proj2 (C79_term_error T O X _ _)).
    assert (N : forall t, numeric t -> no_seps t = t).
    { unfold numeric, no_seps. induction t as [|c t IH]; [reflexivity|]. cbn [forallb filter]. intros H. apply andb_true_iff in H. destruct H as [H1 H2].
      rewrite IH by exact H2. destruct (sep_char c) eqn:E; [|reflexivity]. exfalso.
      unfold num_char, sep_char in *. clear -H1 E. lia. }
    assert (NA : forall a b, no_seps (a ++ b) = no_seps a ++ no_seps b) by (intros a b; apply filter_app).
    rewrite !NA, (N e He), (N n (proj1 (coeff_text_at O X n v Hv))). apply (te_degree_caret O X n v [] e Hv eq_refl He H0 Hp).
  - intros s H. apply C79_error_tells in H. exact H.
  - exists (lit "3x^99999999999999999999"). split; [vm_compute; reflexivity|]. eexists. split; [reflexivity|].
    apply ct_num; [reflexivity|discriminate|intros c E; injection E as <-; reflexivity|vm_compute; reflexivity].
Qed.

Example C79_case : term_from_str (int_num true I32) (int_txt I32) (lit "5 x ^ 2 y") = inr (UnexpectedChar (ch "y")) /\
  term_from_str (int_num true I32) (int_txt I32) (lit "5x^") = inr CaretWithoutDegree /\
  term_from_str (int_num true I32) (int_txt I32) (lit "5^2x") = inr CaretWithoutXInFront /\
  term_from_str (int_num true I32) (int_txt I32) (lit "-xx") = inr MoreThanOneX /\
  term_from_str (int_num true I32) (int_txt I32) (lit "x^2^") = inr MultipleCarets /\
  term_from_str (int_num true I32) (int_txt I32) (lit "99999999999x") = inr CoeffCouldNotBeParsed.
Proof. repeat split; vm_compute; reflexivity. Qed.

Print Assumptions C79_term_error.
Print Assumptions C79_error_tells.
Print Assumptions C79_messages.
Print Assumptions C79_exponent_refuted.
Print Assumptions C79_polynomial_error.
