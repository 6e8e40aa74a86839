(** Property C95: the text a polynomial is printed as determines the polynomial. *)

From Coq Require Import String Ascii NArith ZArith Lia Bool Arith Sorted List.
From Coq Require Import ZifyBool ZifyNat ZifyN.
From Flocq Require Import Core BinarySingleNaN.
From Verif Require Import Base Num Spec Laws Terms Dense DenseFacts DenseMut Sparse SparseFacts SparseCalc Mono Bino Trino.
From Verif Require Import PolyMath MutFacts Wrap Strs StrFacts StrShow P_Str P_Str2 Coef Floats FloatFacts FloatCoef FloatText P_Struct P_FloatText P_FloatRep.
Import ListNotations.
Local Open Scope nat_scope.

(** ** Specification *)

Section Spec.
Context {T : Type} (O : num T) (X : txt T).

(** A polynomial value in one of the five types that print themselves: its coefficients and its text. *)
Inductive prints : (nat -> T) -> res str -> Prop :=
| pr_dense l : prints (dpol O l) (dense_show O X l)
| pr_sparse m : swf m -> prints (spol O m) (sparse_show O X m)
| pr_mono m : prints (mpol O m) (Ok (mono_show O X m))
| pr_bino b : prints (dpol O (bino_list b)) (bino_show O X b)
| pr_trino b : prints (dpol O (trino_list b)) (trino_show O X b).
End Spec.

(** ** Lemmas *)

Definition free (c : N) (s : str) : Prop := ~ In c s.

Lemma free_app c a b : free c a -> free c b -> free c (a ++ b).
Proof. unfold free. rewrite in_app_iff. tauto. Qed.
Lemma cut_at c a b a' b' : free c a -> free c a' -> a ++ c :: b = a' ++ c :: b' -> a = a' /\ b = b'.
Proof.
  unfold free. revert a'. induction a as [|x a IH]; intros [|x' a'] Ha Ha' E; cbn in *.
  - injection E as ->. auto.
  - injection E as <- _. tauto.
  - injection E as -> _. tauto.
  - injection E as <- E. destruct (IH a') as [-> ->]; [tauto|tauto|exact E|auto].
Qed.
Lemma cut_none c a a' b' : free c a -> a = a' ++ c :: b' -> False.
Proof. unfold free. intros Ha ->. apply Ha, in_or_app. right. left. reflexivity. Qed.

Lemma digits_free c s : is_digit c = false -> forallb is_digit s = true -> free c s.
Proof. intros Hc Hs Hi. rewrite forallb_forall in Hs. rewrite (Hs c Hi) in Hc. discriminate. Qed.

Lemma show_N_inj n m : show_N n = show_N m -> n = m.
Proof. intros E. pose proof (show_N_spec n) as (_ & _ & A & _). pose proof (show_N_spec m) as (_ & _ & B & _). rewrite E in A. lia. Qed.
Lemma show_x_form d : d <> 0%N -> exists w, show_x d = ch "x" :: w /\ free (ch " ") w.
Proof.
  intros Hd. unfold show_x. destruct (1 <? d)%N.
  - exists (ch "^" :: show_N d). split; [reflexivity|]. intros [K|K]; [discriminate K|]. revert K. apply digits_free; [reflexivity|apply show_N_spec].
  - exists []. split; [reflexivity|]. intros [].
Qed.
Lemma show_x_inj d e : d <> 0%N -> e <> 0%N -> show_x d = show_x e -> d = e.
Proof.
  intros Hd He. unfold show_x. pose proof (proj1 (show_N_spec d)) as Nd. pose proof (proj1 (show_N_spec e)) as Ne.
  destruct (N.ltb_spec 1 d), (N.ltb_spec 1 e); cbn [lit app]; intros E.
  - apply show_N_inj. injection E. auto.
  - discriminate E. - discriminate E. - lia.
Qed.

(** What printing needs of the text of a coefficient. *)
Record plain_text {T} (O : num T) (X : txt T) : Prop := {
  pt_space : forall c, free (ch " ") (show X c);
  pt_x : forall c, free (ch "x") (show X c);
  pt_some : forall c, show X c <> [] /\ show X c <> lit "-";
  pt_zero : forall c, show X c = lit "0" -> is_zero O c = true;
  pt_inj : forall c c', show X c = show X c' -> c = c';
  pt_one : forall c c', is_one O c = true -> is_one O c' = true -> c = c';
  pt_neg_one : forall c c', is_neg_one O c = true -> is_neg_one O c' = true -> c = c';
  pt_abs : forall c c' a, is_zero O c = false -> is_zero O c' = false -> is_pos O c = is_pos O c' ->
    absv O c = Ok a -> absv O c' = Ok a -> c = c'
}.

Section Inj.
Context {T : Type} (O : num T) (X : txt T) (P : plain_text O X).

(** A coefficient as written and the power after it. *)
Definition body (pre : str) (d : N) : str := pre ++ (if (d =? 0)%N then [] else show_x d).

Lemma body_inj pre pre' d d' : free (ch "x") pre -> free (ch "x") pre' -> body pre d = body pre' d' -> pre = pre' /\ d = d'.
Proof.
  intros Hp Hp'. unfold body. destruct (N.eqb_spec d 0) as [->|Hd], (N.eqb_spec d' 0) as [->|Hd']; intros E.
  - rewrite !app_nil_r in E. auto.
  - destruct (show_x_form d' Hd') as (w & Ew & _). rewrite Ew, app_nil_r in E. destruct (cut_none _ _ _ _ Hp E).
  - destruct (show_x_form d Hd) as (w & Ew & _). rewrite Ew, app_nil_r in E. destruct (cut_none _ _ _ _ Hp' (eq_sym E)).
  - destruct (show_x_form d Hd) as (w & Ew & _), (show_x_form d' Hd') as (w' & Ew' & _).
    rewrite Ew, Ew' in E. destruct (cut_at _ _ _ _ _ Hp Hp' E) as [-> ->]. split; [reflexivity|]. apply show_x_inj; congruence.
Qed.
Lemma body_space pre d : free (ch " ") pre -> free (ch " ") (body pre d).
Proof.
  intros H. unfold body. apply free_app; [exact H|]. destruct (N.eqb_spec d 0) as [|Hd]; [intros []|].
  destruct (show_x_form d Hd) as (w & -> & Hw). intros [K|K]; [discriminate K|exact (Hw K)].
Qed.

Definition lead_pre (c : T) (d : N) : str :=
  if (d =? 0)%N then show X c else if is_neg_one O c then lit "-" else if negb (is_one O c) then show X c else [].
Lemma leading_body c d : leading_term O X c d = body (lead_pre c d) d.
Proof. unfold leading_term, body, lead_pre. destruct (d =? 0)%N; [rewrite app_nil_r|]; reflexivity. Qed.
Lemma lead_pre_free c d : free (ch " ") (lead_pre c d) /\ free (ch "x") (lead_pre c d).
Proof.
  pose proof (pt_space O X P c). pose proof (pt_x O X P c).
  assert (A : free (ch " ") (lit "-") /\ free (ch "x") (lit "-")) by (split; intros [K|[]]; discriminate K).
  unfold lead_pre. destruct (d =? 0)%N; [auto|]. destruct (is_neg_one O c); [exact A|].
  destruct (negb (is_one O c)); [auto|]. split; intros [].
Qed.
Lemma lead_inj c d c' d' : leading_term O X c d = leading_term O X c' d' -> c = c' /\ d = d'.
Proof.
  rewrite !leading_body. intros E. destruct (body_inj _ _ _ _ (proj2 (lead_pre_free c d)) (proj2 (lead_pre_free c' d')) E) as [E1 <-].
  split; [|reflexivity]. revert E1. unfold lead_pre. pose proof (pt_some O X P c) as [N1 N2]. pose proof (pt_some O X P c') as [N3 N4].
  destruct (d =? 0)%N; [apply (pt_inj O X P)|].
  destruct (is_neg_one O c) eqn:A, (is_neg_one O c') eqn:A'; [intros _; apply (pt_neg_one O X P); assumption| | |];
  destruct (is_one O c) eqn:B, (is_one O c') eqn:B'; cbn [negb]; intros E1; try discriminate E1; try congruence;
    try (apply (pt_one O X P); assumption); apply (pt_inj O X P), E1.
Qed.

Definition trail_pre (a : T) (d : N) : str := if (d =? 0)%N then show X a else if negb (is_one O a) then show X a else [].
Definition sign_ch (c : T) : N := if is_pos O c then ch "+" else ch "-".
Lemma trailing_body c d : trailing_term O X c d = (a <- absv O c ;; Ok (ch " " :: sign_ch c :: ch " " :: body (trail_pre a d) d)).
Proof.
  unfold trailing_term, body, trail_pre, sign_ch. destruct (absv O c) as [a|?|]; cbn [bind]; [|reflexivity|reflexivity].
  destruct (d =? 0)%N; [rewrite app_nil_r|]; destruct (is_pos O c); reflexivity.
Qed.
Lemma trail_pre_free a d : free (ch " ") (trail_pre a d) /\ free (ch "x") (trail_pre a d).
Proof.
  pose proof (pt_space O X P a). pose proof (pt_x O X P a).
  unfold trail_pre. destruct (d =? 0)%N; [auto|]. destruct (negb (is_one O a)); [auto|]. split; intros [].
Qed.
Lemma trail_inj a d a' d' : body (trail_pre a d) d = body (trail_pre a' d') d' -> a = a' /\ d = d'.
Proof.
  intros E. destruct (body_inj _ _ _ _ (proj2 (trail_pre_free a d)) (proj2 (trail_pre_free a' d')) E) as [E1 <-].
  split; [|reflexivity]. revert E1. unfold trail_pre. pose proof (pt_some O X P a) as [N1 N2]. pose proof (pt_some O X P a') as [N3 N4].
  destruct (d =? 0)%N; [apply (pt_inj O X P)|].
  destruct (is_one O a) eqn:B, (is_one O a') eqn:B'; cbn [negb]; intros E1; try congruence;
    try (apply (pt_one O X P); assumption); apply (pt_inj O X P), E1.
Qed.

Fixpoint tails (ts : list (T * N)) : res str :=
  match ts with
  | [] => Ok []
  | t :: ts => s <- trailing_term O X (fst t) (snd t) ;; r <- tails ts ;; Ok (s ++ r)
  end.
Lemma fold_tails ts acc : foldM (fun acc t => s <- trailing_term O X (fst t) (snd t) ;; Ok (acc ++ s)) acc ts = (r <- tails ts ;; Ok (acc ++ r)).
Proof.
  revert acc. induction ts as [|[c d] ts IH]; intros acc; cbn [foldM tails bind fst snd]; [rewrite app_nil_r; reflexivity|].
  destruct (trailing_term O X c d) as [s|?|]; cbn [bind]; [|reflexivity|reflexivity]. rewrite IH.
  destruct (tails ts); cbn [bind]; [rewrite app_assoc|..]; reflexivity.
Qed.
Lemma tails_form ts r : tails ts = Ok r -> match ts with [] => r = [] | _ => exists w, r = ch " " :: w end.
Proof.
  destruct ts as [|[c d] ts]; cbn [tails fst snd]; [intros E; injection E; auto|]. rewrite trailing_body.
  destruct (absv O c); cbn [bind]; [|discriminate|discriminate]. destruct (tails ts); cbn [bind]; [|discriminate|discriminate].
  intros E. injection E as <-. eexists. reflexivity.
Qed.

(** A piece without spaces followed by trailing terms. *)
Lemma piece_inj a ts r a' ts' r' : free (ch " ") a -> free (ch " ") a' -> tails ts = Ok r -> tails ts' = Ok r' -> a ++ r = a' ++ r' ->
  a = a' /\ r = r'.
Proof.
  intros Ha Ha' H H' E. apply tails_form in H, H'. destruct ts, ts'.
  - subst. rewrite !app_nil_r in E. auto.
  - destruct H' as (w & ->). subst r. rewrite app_nil_r in E. destruct (cut_none _ _ _ _ Ha E).
  - destruct H as (w & ->). subst r'. rewrite app_nil_r in E. destruct (cut_none _ _ _ _ Ha' (eq_sym E)).
  - destruct H as (w & ->), H' as (w' & ->). destruct (cut_at _ _ _ _ _ Ha Ha' E) as [-> ->]. auto.
Qed.

Definition shown_ok (ts : list (T * N)) : Prop := Forall (fun t => is_zero O (fst t) = false) ts.

Lemma tails_inj ts : forall ts' r, shown_ok ts -> shown_ok ts' -> tails ts = Ok r -> tails ts' = Ok r -> ts = ts'.
Proof.
  induction ts as [|[c d] ts IH]; intros [|[c' d'] ts'] r Hn Hn' E E'; [reflexivity| | |].
  - cbn in E. injection E as <-. apply tails_form in E'. destruct E' as (w & K). discriminate K.
  - cbn in E'. injection E' as <-. apply tails_form in E. destruct E as (w & K). discriminate K.
  - inversion Hn as [|? ? Hc Hts]; inversion Hn' as [|? ? Hc' Hts']; subst. cbn [fst] in *.
    cbn [tails fst snd] in E, E'. rewrite trailing_body in E, E'.
    destruct (absv O c) as [a|?|] eqn:Ea; cbn [bind] in E; try discriminate E. destruct (absv O c') as [a'|?|] eqn:Ea'; cbn [bind] in E'; try discriminate E'.
    destruct (tails ts) as [w|?|] eqn:Ew; cbn [bind] in E; try discriminate E. destruct (tails ts') as [w'|?|] eqn:Ew'; cbn [bind] in E'; try discriminate E'.
    rewrite <- E' in E. injection E as Ks K.
    destruct (piece_inj _ ts w _ ts' w' (body_space _ d (proj1 (trail_pre_free a d))) (body_space _ d' (proj1 (trail_pre_free a' d'))) Ew Ew' K) as [K1 <-].
    apply trail_inj in K1. destruct K1 as [<- <-]. rewrite (IH ts' w Hts Hts' eq_refl Ew'). f_equal. f_equal.
    eapply (pt_abs O X P); try eassumption. revert Ks. unfold sign_ch. destruct (is_pos O c), (is_pos O c'); intros K1; [reflexivity|discriminate K1|discriminate K1|reflexivity].
Qed.

Lemma zero_not_lead c d ts r : is_zero O c = false -> tails ts = Ok r -> leading_term O X c d ++ r <> lit "0".
Proof.
  intros Hc Hr E. assert (K : leading_term O X c d ++ r = lit "0" ++ []) by (rewrite E; reflexivity).
  destruct (piece_inj (leading_term O X c d) ts r (lit "0") [] []) as [K1 _]; [| |exact Hr|reflexivity|exact K|].
  - rewrite leading_body. apply body_space, lead_pre_free.
  - intros [K1|[]]. discriminate K1.
  - rewrite leading_body in K1. assert (K2 : body (lead_pre c d) d = body (lit "0") 0) by (rewrite K1; reflexivity).
    apply body_inj in K2; [|apply lead_pre_free|intros [K3|[]]; discriminate K3]. destruct K2 as [K2 ->]. cbn in K2.
    apply (pt_zero O X P) in K2. congruence.
Qed.

Lemma show_terms_inj ts ts' s : shown_ok ts -> shown_ok ts' -> show_terms O X ts = Ok s -> show_terms O X ts' = Ok s -> ts = ts'.
Proof.
  intros Hn Hn'. destruct ts as [|[c d] ts], ts' as [|[c' d'] ts']; cbn [show_terms]; rewrite ?fold_tails; intros E E'; [reflexivity| | |].
  - exfalso. destruct (tails ts') as [r'|?|] eqn:Er; cbn [bind] in E'; try discriminate E'. inversion Hn' as [|? ? Hc _]; subst.
    apply (zero_not_lead c' d' ts' r' Hc Er). congruence.
  - exfalso. destruct (tails ts) as [r|?|] eqn:Er; cbn [bind] in E; try discriminate E. inversion Hn as [|? ? Hc _]; subst.
    apply (zero_not_lead c d ts r Hc Er). congruence.
  - destruct (tails ts) as [r|?|] eqn:Er; cbn [bind] in E; try discriminate E. destruct (tails ts') as [r'|?|] eqn:Er'; cbn [bind] in E'; try discriminate E'.
    assert (K : leading_term O X c d ++ r = leading_term O X c' d' ++ r') by congruence.
    destruct (piece_inj (leading_term O X c d) ts r (leading_term O X c' d') ts' r') as [K1 <-]; [| |exact Er|exact Er'|exact K|].
    + rewrite leading_body. apply body_space, lead_pre_free.
    + rewrite leading_body. apply body_space, lead_pre_free.
    + apply lead_inj in K1. destruct K1 as [<- <-]. f_equal. inversion Hn; inversion Hn'; subst. eapply tails_inj; eassumption.
Qed.
End Inj.

Section Values.
Context {T : Type} (O : num T) (X : txt T) (Z0 : is_zero O (zero O) = true).

Lemma prints_terms p s : prints O X p s -> exists ts, lists_of O p ts /\ s = show_terms O X ts.
Proof.
  destruct (C72_terms T O Z0) as (T1 & T2 & T3 & T4 & T5). intros [l|m Hm|m|b|b].
  - destruct (T1 l) as (ts & E & H). exists ts. split; [exact H|]. unfold dense_show. rewrite E. reflexivity.
  - exists (sparse_terms O m). split; [apply T2, Hm|reflexivity].
  - exists (mono_terms O m). split; [apply T3|apply mono_show_terms].
  - destruct (T4 b) as (ts & E & H). exists ts. split; [exact H|]. unfold bino_show. rewrite E. reflexivity.
  - destruct (T5 b) as (ts & E & H). exists ts. split; [exact H|]. unfold trino_show. rewrite E. reflexivity.
Qed.
Lemma lists_alike p q ts : same_coefs O p q -> lists_of O p ts -> lists_of O q ts.
Proof.
  intros A [Hs Hi]. split; [exact Hs|]. intros c d. rewrite Hi. destruct (A (N.to_nat d)) as [->|[A1 A2]]; [reflexivity|].
  split; intros [-> K]; congruence.
Qed.
Lemma lists_nonzero p ts : lists_of O p ts -> shown_ok O ts.
Proof. intros [_ Hi]. apply Forall_forall. intros [c d] Hc. apply Hi in Hc. apply Hc. Qed.
Lemma alike_lists p q ts : lists_of O p ts -> lists_of O q ts -> same_coefs O p q.
Proof.
  intros [_ Hp] [_ Hq] d. rewrite <- (Nat2N.id d). destruct (is_zero O (p (N.to_nat (N.of_nat d)))) eqn:E.
  - destruct (is_zero O (q (N.to_nat (N.of_nat d)))) eqn:F; [auto|]. left. symmetry.
    assert (K : In (q (N.to_nat (N.of_nat d)), N.of_nat d) ts) by (apply Hq; auto). apply Hp in K. apply K.
  - left. assert (K : In (p (N.to_nat (N.of_nat d)), N.of_nat d) ts) by (apply Hp; auto). apply Hq in K. apply K.
Qed.
End Values.

(** ** Integers and floats have plain text *)

Lemma int_plain chk t : plain_text (int_num chk t) (int_txt t).
Proof.
  assert (F : forall k (c : int t), is_digit k = false -> k <> ch "-" -> free k (show (int_txt t) c)).
  { intros k c H1 H2. cbn [show int_txt]. unfold show_Z. destruct (ival c <? 0)%Z.
    - intros [K|K]; [congruence|]. revert K. apply digits_free; [exact H1|apply show_N_spec].
    - apply digits_free; [exact H1|apply show_N_spec]. }
  assert (HN : forall n, show_N n <> [] /\ forall w, show_N n <> ch "-" :: w).
  { intros n. pose proof (show_N_spec n) as (N1 & N2 & _). split; [exact N1|]. intros w E. rewrite E in N2. discriminate N2. }
  assert (SI : forall z z', show_Z z = show_Z z' -> z = z').
  { intros z z'. unfold show_Z. destruct (Z.ltb_spec z 0), (Z.ltb_spec z' 0); intros E.
    - injection E as E. apply show_N_inj in E. lia.
    - destruct (proj2 (HN _) _ (eq_sym E)). - destruct (proj2 (HN _) _ E). - apply show_N_inj in E. lia. }
  split.
  - intros c. apply F; [reflexivity|discriminate]. - intros c. apply F; [reflexivity|discriminate].
  - intros c. cbn [show int_txt]. unfold show_Z. destruct (ival c <? 0)%Z.
    + split; [discriminate|]. intros E. injection E as E. destruct (HN (Z.to_N (- ival c))) as [K _]. exact (K E).
    + split; [apply HN|]. apply (HN _).
  - intros c E. cbn [show int_txt] in E. change (lit "0") with (show_Z 0) in E. apply SI in E. cbn. lia.
  - intros c c' E. apply int_eq, SI, E.
  - intros c c'. unfold is_one. cbn [eqb one int_num]. intros A B. apply int_eq. lia.
  - intros c c'. cbn [is_neg_one int_num]. destruct (signed t); [|discriminate]. intros A B. apply int_eq. lia.
  - intros c c' a. cbn [is_zero is_pos absv int_num]. intros Hc Hc' Hp. destruct (signed t) eqn:Sg; [|congruence].
    assert (B : forall c : int t, arith chk t (Z.abs (ival c)) = Ok a -> ival a = wrap t (Z.abs (ival c))).
    { intros e. unfold arith. destruct (in_range t (Z.abs (ival e))); [|destruct chk; [discriminate|]]; intros E; injection E as <-; reflexivity. }
    intros E E'. apply B in E, E'. rewrite E in E'. apply wrap_congr_iff in E'. apply int_eq.
    assert (G : forall e : int t, (0 <= Z.abs (ival e) < imod t)%Z).
    { intros e. pose proof (ival_ok e) as H. unfold in_range, imin, imax in H. rewrite Sg in H. unfold imod.
      assert (0 < 2 ^ (bits t - 1) < 2 ^ bits t)%Z by (destruct t; cbn; lia). lia. }
    rewrite !Z.mod_small in E' by apply G. lia.
Qed.

Section FloatPlain.
Context (f : fty) (sh : flt f -> str) (H : float_display f sh).

Lemma finite_chars x : is_finite x = true -> forall c, In c (sh x) -> is_digit c = true \/ c = ch "." \/ c = ch "-".
Proof.
  intros Hf c Hc. destruct (fd_finite f sh H x Hf) as (ip & fp & A & _ & Di & Df & E & _). rewrite forallb_forall in Di, Df.
  rewrite E in Hc. apply in_app_or in Hc. destruct Hc as [Hc|Hc].
  - destruct (Bsign x); [|destruct Hc]. destruct Hc as [<-|[]]. auto.
  - destruct A as [[A _]|A]; rewrite A in Hc; [left; apply Di, Hc|]. apply in_app_or in Hc. destruct Hc as [Hc|[<-|Hc]]; [left; apply Di, Hc|auto|left; apply Df, Hc].
Qed.
Lemma finite_digit x : is_finite x = true -> exists c, In c (sh x) /\ is_digit c = true.
Proof.
  intros Hf. destruct (fd_finite f sh H x Hf) as (ip & fp & A & Hi & Di & _ & E & _). destruct ip as [|c ip]; [congruence|].
  exists c. cbn in Di. apply andb_true_iff in Di. split; [|apply Di]. rewrite E. apply in_or_app. right.
  destruct A as [[-> _]| ->]; left; reflexivity.
Qed.
Lemma nonfinite_text x : is_finite x = false -> exists s, x = B754_infinity s /\ sh x = (if s then lit "-inf" else lit "inf") \/ x = B754_nan /\ sh x = lit "NaN".
Proof.
  destruct x as [s|s| |s m e B]; intros K; try discriminate K.
  - exists s. left. split; [reflexivity|]. rewrite (fd_inf f sh H). destruct s; reflexivity.
  - exists false. right. split; [reflexivity|apply (fd_nan f sh H)].
Qed.
Lemma nonfinite_digit x : is_finite x = false -> forall c, In c (sh x) -> is_digit c = false.
Proof.
  intros K c Hc. destruct (nonfinite_text x K) as (s & [[_ E]|[_ E]]); rewrite E in Hc; [destruct s|];
    cbn in Hc; repeat (destruct Hc as [<-|Hc]; [reflexivity|]); destruct Hc.
Qed.
Lemma sh_inj x y : sh x = sh y -> x = y.
Proof.
  intros E. destruct (is_finite x) eqn:Fx, (is_finite y) eqn:Fy.
  - destruct (fd_finite f sh H x Fx) as (? & ? & _ & _ & _ & _ & _ & P1). destruct (fd_finite f sh H y Fy) as (? & ? & _ & _ & _ & _ & _ & P2). congruence.
  - destruct (finite_digit x Fx) as (c & C1 & C2). rewrite E in C1. rewrite (nonfinite_digit y Fy c C1) in C2. discriminate.
  - destruct (finite_digit y Fy) as (c & C1 & C2). rewrite <- E in C1. rewrite (nonfinite_digit x Fx c C1) in C2. discriminate.
  - destruct (nonfinite_text x Fx) as (s & [[-> Es]|[-> Es]]), (nonfinite_text y Fy) as (u & [[-> Eu]|[-> Eu]]); try reflexivity; rewrite Es, Eu in E;
      try destruct s; try destruct u; try discriminate E; reflexivity.
Qed.

Lemma float_plain chk powi : plain_text (float_num chk f powi) (float_txt f sh).
Proof.
  assert (F : forall k c, is_digit k = false -> k <> ch "." -> k <> ch "-" -> ~ In k (lit "-inf") -> ~ In k (lit "NaN") -> free k (sh c)).
  { intros k c K1 K2 K3 K4 K5 K. destruct (is_finite c) eqn:Fc.
    - destruct (finite_chars c Fc k K) as [G|[G|G]]; congruence.
    - destruct (nonfinite_text c Fc) as (s & [[_ E]|[_ E]]); rewrite E in K; [|exact (K5 K)]. destruct s; [exact (K4 K)|]. apply K4. right. exact K. }
  assert (L : forall c, sh c <> [] /\ sh c <> lit "-").
  { intros c. destruct (is_finite c) eqn:Fc.
    - destruct (finite_digit c Fc) as (k & K1 & K2). split; intros E; rewrite E in K1; [destruct K1|]. destruct K1 as [<-|[]]. discriminate K2.
    - destruct (nonfinite_text c Fc) as (s & [[_ E]|[_ E]]); rewrite E; [destruct s|]; split; discriminate. }
  split; cbn [show float_txt].
  - intros c. apply F; try reflexivity; try discriminate; cbn; intuition discriminate.
  - intros c. apply F; try reflexivity; try discriminate; cbn; intuition discriminate.
  - exact L.
  - intros c E. destruct (is_finite c) eqn:Fc.
    + destruct (fd_finite f sh H c Fc) as (? & ? & _ & _ & _ & _ & _ & P). rewrite E in P. clear -P.
      assert (G : match float_parse f (lit "0") with Some z => feqb z (fzero f) = true | None => True end) by (destruct f; vm_compute; reflexivity).
      rewrite P in G. exact G.
    + destruct (nonfinite_text c Fc) as (s & [[_ E']|[_ E']]); rewrite E' in E; [destruct s|]; discriminate E.
  - apply sh_inj.
  - intros c c' A B. unfold is_one in A, B. cbn [eqb one float_num] in A, B. apply feqb_iff in A, B.
    assert (G : feqb (f_of_Z f 1) (fzero f) = true -> False) by (clear; destruct f; vm_compute; discriminate).
    destruct A as [_ [->|[_ A]]]; [|destruct (G A)]. destruct B as [_ [->|[_ B]]]; [reflexivity|destruct (G B)].
  - intros c c' A B. cbn [is_neg_one float_num] in A, B. apply feqb_iff in A, B.
    assert (G : feqb (f_of_Z f (-1)) (fzero f) = true -> False) by (clear; destruct f; vm_compute; discriminate).
    destruct A as [_ [->|[_ A]]]; [|destruct (G A)]. destruct B as [_ [->|[_ B]]]; [reflexivity|destruct (G B)].
  - intros c c' a. cbn [is_zero is_pos absv float_num]. intros Hc Hc' Hp Ha Ha'. injection Ha as <-. injection Ha' as Ha'.
    apply (f_equal B2SF) in Ha'. apply B2SF_inj.
    destruct c as [s|s| |s m e B], c' as [s'|s'| |s' m' e' B']; cbn in Ha'; try discriminate Ha'; try discriminate Hc; try discriminate Hc'; try reflexivity.
    + destruct s, s'; try reflexivity; discriminate Hp.
    + injection Ha' as -> ->. cbn. destruct s, s'; try reflexivity; discriminate Hp.
Qed.
End FloatPlain.

(** ** C95 *)

(** For any coefficient type: equal coefficients give the same text (or the same panic), whatever types
    hold them, and the same text comes only from the same coefficients. *)
Theorem C95_text : forall T (O : num T) (X : txt T), is_zero O (zero O) = true -> forall p q s u,
  prints O X p s -> prints O X q u ->
  (same_coefs O p q -> s = u) /\
  (plain_text O X -> forall w, s = Ok w -> u = Ok w -> same_coefs O p q).
Proof.
  intros T O X Z0 p q s u Hp Hq. destruct (prints_terms O X Z0 p s Hp) as (ts & L1 & ->). destruct (prints_terms O X Z0 q u Hq) as (us & L2 & ->).
  split.
  - intros A. rewrite (lists_of_fun O q ts us (lists_alike O p q ts A L1) L2). reflexivity.
  - intros P w E1 E2. assert (E : ts = us) by (eapply (show_terms_inj O X P); [eapply lists_nonzero, L1|eapply lists_nonzero, L2|exact E1|exact E2]).
    subst us. eapply alike_lists; eassumption.
Qed.

(** Integers, with and without overflow checks. *)
Theorem C95_integers : forall chk t p q s u, prints (int_num chk t) (int_txt t) p s -> prints (int_num chk t) (int_txt t) q u ->
  ((forall d, ival (p d) = ival (q d)) -> s = u) /\
  (forall w, s = Ok w -> u = Ok w -> forall d, ival (p d) = ival (q d)).
Proof.
  intros chk t p q s u Hp Hq. assert (Z0 : is_zero (int_num chk t) (zero (int_num chk t)) = true) by (destruct t; reflexivity).
  destruct (C95_text _ _ _ Z0 p q s u Hp Hq) as [A B]. split.
  - intros E. apply A. intros d. left. apply int_eq, E.
  - intros w E1 E2 d. destruct (B (int_plain chk t) w E1 E2 d) as [->|[C D]]; [reflexivity|]. cbn in C, D. lia.
Qed.

(** Floats, infinities and NaN included; printing them never panics. *)
Theorem C95_floats : forall chk f powi sh, float_display f sh -> let O := float_num chk f powi in let X := float_txt f sh in
  forall p q s u, prints O X p s -> prints O X q u ->
  (exists w, s = Ok w) /\ (s = u <-> forall d, fsame (p d) (q d)).
Proof.
  intros chk f powi sh H O X p q s u Hp Hq. assert (G : forall p s, prints O X p s -> exists w, s = Ok w).
  { intros p0 s0 Hp0. destruct (prints_terms O X eq_refl p0 s0 Hp0) as (ts & _ & ->). destruct ts as [|[c d] ts]; [eexists; reflexivity|].
    cbn [show_terms]. rewrite fold_tails. assert (K : exists r, tails O X ts = Ok r).
    { clear. induction ts as [|[c d] ts [r IH]]; [eexists; reflexivity|]. cbn [tails fst snd]. rewrite trailing_body, IH. cbn. eexists. reflexivity. }
    destruct K as (r & ->). eexists. reflexivity. }
  destruct (C95_text _ O X eq_refl p q s u Hp Hq) as [A B]. split; [eapply G, Hp|]. split; [|exact A].
  intros <-. destruct (G _ _ Hp) as (w & ->). exact (B (float_plain f sh H chk powi) w eq_refl eq_refl).
Qed.

(** Polynomials that compare equal print alike, and whatever prints alike compares equal. *)
Theorem C95_equal_text : forall chk t a b, let O := int_num chk t in let X := int_txt t in
  (dense_eq O a b = Ok true -> dense_show O X a = dense_show O X b) /\
  (forall w, dense_show O X a = Ok w -> dense_show O X b = Ok w -> dense_eq O a b = Ok true).
Proof.
  intros chk t a b O X. assert (Z0 : is_zero O (zero O) = true) by (destruct t; reflexivity).
  destruct (C95_text _ O X Z0 _ _ _ _ (pr_dense O X a) (pr_dense O X b)) as [A B].
  destruct (C72_equality _ O Z0) as [C _]. destruct (C a b) as (r & Er & Hr). split.
  - intros E. apply A. assert (K : r = true) by congruence. apply Hr in K. intros d. destruct (K d) as [[K1 K2]|(K1 & K2 & K3)]; [auto|].
    left. apply int_eq. cbn in K3. lia.
  - intros w E1 E2. rewrite Er. f_equal. apply Hr. intros d. specialize (B (int_plain chk t) w E1 E2 d).
    destruct B as [E|B]; [|left; exact B]. rewrite E. destruct (is_zero O (dpol O b d)); [left; auto|right]. cbn. rewrite Z.eqb_refl. auto.
Qed.

(** ** Concrete cases *)

(** 3x - 1 held as a vector with a leading zero, as a sorted map and as a binomial: one text. *)
Example C95_case : let O := int_num true I32 in let X := int_txt I32 in let i := mk_int I32 in
  dense_show O X [i 0; i 3; i (-1)]%Z = Ok (lit "3x - 1") /\
  sparse_show O X [(0%N, i (-1)); (1%N, i 3)]%Z = Ok (lit "3x - 1") /\
  bino_show O X (MkBino (i 3) (i (-1)))%Z = Ok (lit "3x - 1").
Proof. vm_compute. auto. Qed.

(** Only the zero polynomial prints "0". *)
Example C95_zero_case : forall t p, prints (int_num true t) (int_txt t) p (Ok (lit "0")) -> forall d, ival (p d) = 0%Z.
Proof.
  intros t p Hp d. destruct (C95_integers true t _ _ _ _ Hp (pr_dense _ _ [])) as [_ A].
  rewrite (A (lit "0") eq_refl eq_refl d).
  replace (dpol (int_num true t) [] d) with (mk_int t 0) by (destruct d; reflexivity). destruct t; reflexivity.
Qed.

Example C95_float_case : plain_text (float_num true F64 (fun x _ => x)) (float_txt F64 (show_exact F64)).
Proof. apply float_plain, show_exact_display. Qed.

Print Assumptions C95_text.
Print Assumptions C95_integers.
Print Assumptions C95_floats.
Print Assumptions C95_equal_text.
