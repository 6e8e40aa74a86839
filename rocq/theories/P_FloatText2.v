(** Property C78, continued: parsing a monomial with float coefficients. *)

From Coq Require Import String Ascii List NArith ZArith Reals Lia Lra Bool Arith.
From Coq Require Import ZifyBool ZifyNat ZifyN.
From Flocq Require Import IEEE754.BinarySingleNaN.
From Verif Require Import Base Num Laws Terms Dense Sparse Mono Bino Trino PolyMath MutFacts.
From Verif Require Import Strs StrFacts StrShow P_Str P_Str2 Coef Floats FloatCoef FloatText P_Struct P_FloatText P_FloatRep.
Import ListNotations.
Local Open Scope nat_scope.

(** When a term is read, the terms of every other degree read before it cancel out. *)
Definition one_power_at_a_time {f} (ts : list (flt f * N)) : Prop :=
  forall pre c e post, ts = pre ++ (c, e) :: post ->
  forall d, N.of_nat d <> e -> feqb (sum_at d pre (fzero f)) (fzero f) = true.

Section Mono.
Context (chk : bool) (f : fty) (powi : flt f -> N -> flt f).
Notation O := (float_num chk f powi).

Definition fits_mono (m : mono (flt f)) (ts : list (flt f * N)) : Prop :=
  forall pre c e post, ts = pre ++ (c, e) :: post ->
  forall d, N.of_nat d <> e -> feqb (sum_at d pre (mpol O m d)) (fzero f) = true.

Lemma sum_at_same d ts : forall a b : flt f, fsame a b -> fsame (sum_at d ts a) (sum_at d ts b).
Proof.
  induction ts as [|[c e] ts IH]; intros a b H; [exact H|]. rewrite !sum_at_cons. apply IH. destruct (e =? N.of_nat d)%N; [|exact H].
  apply fadd_cong; [exact H|left; reflexivity].
Qed.
Lemma same_zero (a b : flt f) : fsame a b -> feqb a (fzero f) = feqb b (fzero f).
Proof. intros [->|[-> ->]]; reflexivity. Qed.

Lemma mono_step (m : mono (flt f)) c e :
  ((forall d, N.of_nat d <> e -> feqb (mpol O m d) (fzero f) = true) ->
   exists r, mono_try_add_term O m c e = Ok (r, None) /\ forall d, fsame (mpol O r d) (if (e =? N.of_nat d)%N then fadd (mpol O m d) c else mpol O m d)) /\
  (forall r, mono_try_add_term O m c e = Ok (r, None) -> forall d, N.of_nat d <> e -> feqb (mpol O m d) (fzero f) = true).
Proof.
  assert (Z : mono_is_zero O m = feqb (mcoef m) (fzero f)).
  { unfold mono_is_zero, mono_degree. cbn [is_zero float_num]. destruct (feqb (mcoef m) (fzero f)); reflexivity. }
  assert (Z0 : feqb (fzero f) (fzero f) = true) by (destruct f; reflexivity).
  unfold mono_try_add_term. rewrite Z. cbn [add float_num bind]. split.
  - intros H. destruct (feqb (mcoef m) (fzero f)) eqn:E.
    + eexists. split; [reflexivity|]. intros d. unfold mpol. cbn [mcoef mdeg]. rewrite (N.eqb_sym e).
      destruct (N.eqb_spec (N.of_nat d) e) as [K|K].
      * destruct (N.of_nat d =? mdeg m)%N; [left; reflexivity|]. apply fadd_cong; [right; split; [exact E|exact Z0]|left; reflexivity].
      * destruct (N.of_nat d =? mdeg m)%N; [right; split; [exact Z0|exact E]|left; reflexivity].
    + destruct (N.eqb_spec e (mdeg m)) as [K|K].
      * eexists. split; [reflexivity|]. intros d. unfold mpol. cbn [mcoef mdeg]. subst e. rewrite (N.eqb_sym (mdeg m)).
        destruct (N.of_nat d =? mdeg m)%N; left; reflexivity.
      * exfalso. specialize (H (N.to_nat (mdeg m))). unfold mpol in H. rewrite N2Nat.id, N.eqb_refl in H. rewrite H in E by congruence. discriminate.
  - intros r H d Hd. destruct (feqb (mcoef m) (fzero f)) eqn:E.
    + unfold mpol. destruct (N.of_nat d =? mdeg m)%N; [exact E|exact Z0].
    + destruct (N.eqb_spec e (mdeg m)) as [K|K]; [|discriminate H]. unfold mpol. destruct (N.eqb_spec (N.of_nat d) (mdeg m)); [congruence|exact Z0].
Qed.

Lemma mono_terms_read ts : forall m,
  exists r o, apply_terms (s_add (mono_mut O)) ts m = Ok (r, o) /\ (o = None <-> fits_mono m ts) /\
    (o = None -> forall d, fsame (mpol O r d) (sum_at d ts (mpol O m d))).
Proof.
  induction ts as [|[c e] ts IH]; intros m.
  - exists m, None. split; [reflexivity|]. split.
    + split; [|reflexivity]. intros _ [|? ?] c e post E; discriminate E.
    + intros _ d. left. reflexivity.
  - cbn [apply_terms s_add mono_mut]. destruct (mono_step m c e) as [S1 S2].
    assert (Dec : (exists r, mono_try_add_term O m c e = Ok (r, None)) \/ mono_try_add_term O m c e = Ok (m, Some TooManyTerms)).
    { unfold mono_try_add_term. cbn [add float_num bind]. destruct (mono_is_zero O m); [left; eauto|]. destruct (e =? mdeg m)%N; [left; eauto|right; reflexivity]. }
    destruct Dec as [[r Er]|Er].
    + destruct (S1 (S2 r Er)) as (r' & Er' & C). rewrite Er in Er'. injection Er' as <-. rewrite Er. cbn [bind snd fst].
      destruct (IH r) as (q & o & Eq & Ho & Hq). exists q, o. split; [exact Eq|]. split.
      * rewrite Ho. split; intros F.
        -- intros [|[c' e'] pre] c2 e2 post E d Hd.
           ++ injection E as <- <- <-. apply (S2 r Er d Hd).
           ++ injection E as <- <- E. rewrite sum_at_cons. rewrite <- (same_zero _ _ (sum_at_same d pre _ _ (C d))). eapply F; eassumption.
        -- intros pre c2 e2 post E d Hd. rewrite (same_zero _ _ (sum_at_same d pre _ _ (C d))), <- sum_at_cons.
           apply (F ((c, e) :: pre) c2 e2 post); [rewrite E; reflexivity|exact Hd].
      * intros Hn d. rewrite sum_at_cons. eapply fsame_trans; [apply Hq, Hn|apply sum_at_same, C].
    + rewrite Er. cbn [bind snd fst]. exists m, (Some TooManyTerms). split; [reflexivity|]. split; [|discriminate].
      split; [discriminate|]. intros F. exfalso. destruct (S1 (F [] c e ts eq_refl)) as (r & Er' & _). rewrite Er in Er'. discriminate.
Qed.
End Mono.

(** Monomial::from_str accepts exactly the nonempty texts whose terms parse, the terms read before
    one of another degree cancelling out; it returns their sum, rounded after each term. *)
Theorem C78_monomial : forall chk f powi sh s, let O := float_num chk f powi in let X := float_txt f sh in
  (forall toks terms, s <> [] -> is_tokenization s toks -> parsed O X toks terms -> one_power_at_a_time (pairs terms) ->
     exists p, mono_from_str O X s = Ok (inl p)) /\
  (forall p, mono_from_str O X s = Ok (inl p) -> s <> [] /\ exists toks terms, is_tokenization s toks /\ parsed O X toks terms /\
     one_power_at_a_time (pairs terms) /\ forall d, fsame (mpol O p d) (sum_at d (pairs terms) (fzero f))).
Proof.
  intros chk f powi sh s O X.
  assert (Hz : forall d, mpol O (mono_zero O) d = fzero f) by (intros d; unfold mpol, mono_zero; cbn [mcoef mdeg zero float_num O]; destruct (_ =? _)%N; reflexivity).
  assert (Hf : forall ts, fits_mono chk f powi (mono_zero O) ts <-> one_power_at_a_time ts).
  { intros ts. unfold fits_mono, one_power_at_a_time. split; intros H pre c e post E d Hd; specialize (H pre c e post E d Hd); rewrite Hz in *; exact H. }
  unfold mono_from_str. split.
  - intros toks terms Hs Ht Hp Ho. rewrite (C34_tokens_unique s toks (tokens s) Ht (tokens_tokenization s)) in Hp.
    pose proof (parse_all_app O X _ _ [] Hp) as E. cbn [parse_all fst snd] in E. rewrite !app_nil_r in E.
    destruct (mono_terms_read chk f powi (pairs terms) (mono_zero O)) as (r & o & Er & Hn & _).
    apply Hf, Hn in Ho. subst o. fold O in Er.
    exists r. rewrite poly_from_str_spec, E. cbn [fst snd]. rewrite Er. destruct s; [congruence|reflexivity].
  - intros p H. rewrite poly_from_str_spec in H. destruct s as [|x s]; [discriminate|]. split; [discriminate|].
    remember (x :: s) as s0 eqn:Es. clear Es. destruct (parse_all_split O X (tokens s0)) as (t1 & rest & terms & Et & Hp & Hfs & Hs).
    destruct (apply_terms (s_add (mono_mut O)) (fst (parse_all O X (tokens s0))) (mono_zero O)) as [[q e]| |] eqn:E; cbn [bind snd fst] in H; try discriminate H.
    destruct e; [discriminate|]. destruct (snd (parse_all O X (tokens s0))); [discriminate|]. injection H as <-. subst rest.
    rewrite app_nil_r in Et. subst t1. rewrite Hfs in E.
    destruct (mono_terms_read chk f powi (pairs terms) (mono_zero O)) as (r & o & Er & Hn & Hr).
    fold O in Er, Hr. rewrite E in Er. injection Er as <- <-.
    exists (tokens s0), terms. split; [apply tokens_tokenization|]. split; [exact Hp|]. split; [apply Hf, Hn; reflexivity|].
    intros d. rewrite <- (Hz d) at 1. apply Hr. reflexivity.
Qed.

(** "x - x + .5x^3" is accepted, "x + .5x^3" is not. *)
Example C78_monomial_case : let O := float_num true F64 (fun x _ => x) in let X := float_txt F64 (show_exact F64) in
  rmap (fun r => match r with inl p => feqb (mpol O p 3) (dec_round F64 false 5 1) | inr _ => false end) (mono_from_str O X (lit "x - x + .5x^3")) = Ok true /\
  mono_from_str O X (lit "x + .5x^3") = Ok (inr (AddingTerm TooManyTerms)).
Proof. split; vm_compute; reflexivity. Qed.

Print Assumptions C78_monomial.
