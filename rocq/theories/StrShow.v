(** Printing a list of terms and reading it back. *)

From Coq Require Import String Ascii List NArith ZArith Lia Bool Arith Sorted.
From Coq Require Import ZifyBool ZifyNat ZifyN.
From Verif Require Import Base Num Spec SpecFacts Laws Terms DenseFacts PolyMath MutFacts Strs StrFacts.
Import ListNotations.

(** Non-empty, made of number characters other than signs. *)
Definition plainch (c : N) : bool := is_numch c && negb (is_sign c).
Definition plain (b : str) : Prop := b <> [] /\ forallb plainch b = true.

Lemma plainch_facts c : plainch c = true -> is_numch c = true /\ is_sign c = false /\ is_ws c = false.
Proof.
  unfold plainch, is_numch, is_sign, is_ws. change (ch "+") with 43%N. change (ch "-") with 45%N.
  change (ch ".") with 46%N. change (ch "0") with 48%N. change (ch "9") with 57%N. lia.
Qed.
Lemma plain_num b : forallb plainch b = true -> forallb is_numch b = true.
Proof. intros H. rewrite forallb_forall in *. intros c Hc. apply plainch_facts, H, Hc. Qed.
Lemma digits_plain b : b <> [] -> forallb is_digit b = true -> plain b.
Proof.
  intros Hb H. split; [exact Hb|]. rewrite forallb_forall in *. intros c Hc. destruct (digit_not_sign c (H c Hc)) as (A & B & _).
  unfold plainch. rewrite A, B. reflexivity.
Qed.

(** The text of a coefficient after its sign in non-leading position. *)
Section Show.
Context {T : Type} (O : num T) (X : txt T).

(** Printing the coefficient of the leading term and parsing it back. *)
Definition lead_ok (c : T) : Prop :=
  (eqb O c (one O) = true -> c = one O) /\
  (exists b, plain b /\ (show X c = b \/ show X c = ch "-" :: b)) /\
  parse X (show X c) = Some c /\
  (is_neg_one O c = true -> parse X (lit "-1") = Some c).

Definition sgn (c : T) : N := if is_pos O c then ch "+" else ch "-".
Definition trail_ok (c : T) : Prop :=
  exists a, absv O c = Ok a /\ plain (show X a) /\ parse X (sgn c :: show X a) = Some c /\
    (eqb O a (one O) = true -> parse X [sgn c; ch "1"] = Some c).

Definition nosign (s : str) : Prop := forallb (fun c => negb (is_sign c)) s = true.
Lemma nosign_app a b : nosign (a ++ b) <-> nosign a /\ nosign b.
Proof. unfold nosign. rewrite forallb_app, andb_true_iff. reflexivity. Qed.
Lemma plain_nosign b : forallb plainch b = true -> nosign b.
Proof.
  intros H. unfold nosign. rewrite forallb_forall in *. intros c Hc. destruct (plainch_facts c (H c Hc)) as (_ & A & _). rewrite A. reflexivity.
Qed.

Lemma show_x_nosign d : nosign (show_x d).
Proof.
  unfold show_x. destruct (1 <? d)%N; [|reflexivity]. apply nosign_app. split; [reflexivity|].
  destruct (show_N_spec d) as (A & B & _). apply plain_nosign, digits_plain; assumption.
Qed.
Lemma show_x_head d : exists u, show_x d = ch "x" :: u.
Proof. unfold show_x. destruct (1 <? d)%N; eexists; reflexivity. Qed.

(** After the coefficient: x, and the exponent. *)
Lemma parse_show_x d sp v w : (1 <= d <= USIZE_MAX)%N -> forallb is_sep sp = true -> coeff_at_x X v (one O) = inl w ->
  term_loop O X (show_x d ++ sp) v (one O) false false = inl (term_new O w d).
Proof.
  intros Hd Hs Hv. unfold show_x. destruct (N.ltb_spec 1 d) as [H|H].
  - change (lit "x^") with [ch "x"; ch "^"]. cbn [app]. rewrite term_loop_x, Hv, term_loop_caret.
    destruct (show_N_spec d) as (A & B & _). pose proof (digits_plain _ A B) as [_ Hp].
    rewrite term_loop_num by (apply plain_num, Hp). cbn [app]. rewrite <- (app_nil_r sp), term_loop_sep by exact Hs.
    cbn [term_loop term_finish]. unfold term_finish. rewrite parse_usize_show by lia. destruct (show_N d); [congruence|reflexivity].
  - change (lit "x") with [ch "x"]. cbn [app]. rewrite term_loop_x, Hv. rewrite <- (app_nil_r sp), term_loop_sep by exact Hs.
    cbn [term_loop]. unfold term_finish. replace d with 1%N by lia. reflexivity.
Qed.

Lemma coeff_at_x_num v c w : v <> [] -> (forall x, v = [x] -> is_sign x = false) -> parse X v = Some w -> coeff_at_x X v c = inl w.
Proof.
  intros Hv Hs Hp. destruct v as [|x v]; [congruence|]. unfold coeff_at_x. destruct v as [|y v]; [|rewrite Hp; reflexivity].
  specialize (Hs x eq_refl). unfold is_sign in Hs. rewrite orb_comm, Hs. rewrite Hp. reflexivity.
Qed.
Lemma coeff_at_x_sign x c w : is_sign x = true -> parse X [x; ch "1"] = Some w -> coeff_at_x X [x] c = inl w.
Proof. intros Hs Hp. unfold coeff_at_x. unfold is_sign in Hs. rewrite orb_comm, Hs, Hp. reflexivity. Qed.

Lemma show_numeric c : lead_ok c -> forallb is_numch (show X c) = true /\ show X c <> [] /\ (forall x, show X c = [x] -> is_sign x = false).
Proof.
  intros (_ & (b & [Hb Hp] & [E|E]) & _); rewrite E.
  - split; [apply plain_num, Hp|]. split; [exact Hb|]. intros x ->. cbn in Hp. destruct (plainch_facts x); [lia|tauto].
  - split; [cbn [forallb]; rewrite (plain_num b Hp); reflexivity|]. split; [discriminate|]. intros x E2. injection E2 as _ E2. congruence.
Qed.

Lemma parse_leading c d sp : lead_ok c -> (d <= USIZE_MAX)%N -> forallb is_sep sp = true ->
  term_from_str O X (leading_term O X c d ++ sp) = inl (term_new O c d).
Proof.
  intros Hc Hd Hs. unfold term_from_str, leading_term. destruct (show_numeric c Hc) as (Hn & Hne & H1).
  destruct Hc as (Ho & _ & Hp & Hm).
  destruct (N.eqb_spec d 0) as [->|Hd0].
  - rewrite term_loop_num by exact Hn. rewrite <- (app_nil_r sp), term_loop_sep by exact Hs. cbn [app term_loop].
    unfold term_finish. rewrite Hp. reflexivity.
  - rewrite <- app_assoc. destruct (is_neg_one O c) eqn:En.
    + change (lit "-") with [ch "-"]. rewrite term_loop_num by reflexivity. cbn [app]. apply parse_show_x; [lia|exact Hs|].
      apply coeff_at_x_sign; [reflexivity|]. apply Hm; reflexivity.
    + unfold is_one. destruct (eqb O c (one O)) eqn:Eo; cbn [negb].
      * cbn [app]. rewrite (Ho eq_refl). apply parse_show_x; [lia|exact Hs|reflexivity].
      * rewrite term_loop_num by exact Hn. cbn [app]. apply parse_show_x; [lia|exact Hs|].
        apply coeff_at_x_num; [exact Hne|exact H1|exact Hp].
Qed.

(** A leading term is one token so far. *)
Lemma split_run u : forall cur s, nosign u -> split_tok true cur (u ++ s) = split_tok true (cur ++ u) s.
Proof.
  induction u as [|c u IH]; intros cur s H; [rewrite app_nil_r; reflexivity|]. unfold nosign in H. cbn [forallb] in H.
  apply andb_true_iff in H. destruct H as [H1 H2]. apply negb_true_iff in H1. cbn [app split_tok]. rewrite H1. cbn [orb].
  rewrite IH by exact H2. rewrite <- app_assoc. reflexivity.
Qed.
Lemma split_first c u s : is_ws c = false -> nosign u -> split_tok false [] ((c :: u) ++ s) = split_tok true (c :: u) s.
Proof.
  intros Hw Hu. cbn [app split_tok]. rewrite Hw. cbn [orb negb]. destruct (is_sign c); apply (split_run u [c]); exact Hu.
Qed.
Lemma leading_first c d : lead_ok c -> exists x u, leading_term O X c d = x :: u /\ is_ws x = false /\ nosign u.
Proof.
  intros (_ & Hsh & _).
  assert (S : exists x u, show X c = x :: u /\ is_ws x = false /\ nosign u).
  { destruct Hsh as (b & [Hb Hp] & [E|E]); rewrite E.
    - destruct b as [|x u]; [congruence|]. cbn [forallb] in Hp. apply andb_true_iff in Hp. destruct Hp as [Hx Hu].
      exists x, u. split; [reflexivity|]. split; [apply plainch_facts, Hx|apply plain_nosign, Hu].
    - exists (ch "-"), b. split; [reflexivity|]. split; [reflexivity|apply plain_nosign, Hp]. }
  destruct S as (x & u & E & Hw & Hu). unfold leading_term. destruct (d =? 0)%N; [eauto|].
  destruct (is_neg_one O c).
  - exists (ch "-"), (show_x d). split; [reflexivity|]. split; [reflexivity|apply show_x_nosign].
  - unfold is_one. destruct (eqb O c (one O)); cbn [negb app].
    + destruct (show_x_head d) as (v & Ev). exists (ch "x"), v. split; [exact Ev|]. split; [reflexivity|].
      pose proof (show_x_nosign d) as H. rewrite Ev in H. exact H.
    + rewrite E. exists x, (u ++ show_x d). split; [reflexivity|]. split; [exact Hw|]. apply nosign_app. split; [exact Hu|apply show_x_nosign].
Qed.

(** A trailing term: blank, sign, blank, body. *)
Lemma trailing_spec c d : trail_ok c -> (d <= USIZE_MAX)%N ->
  exists body, trailing_term O X c d = Ok (ch " " :: sgn c :: ch " " :: body) /\ nosign body /\
    forall sp, forallb is_sep sp = true -> term_from_str O X ((sgn c :: ch " " :: body) ++ sp) = inl (term_new O c d).
Proof.
  intros (a & Ha & [Hb Hp] & Hc & H1) Hd. unfold trailing_term. rewrite Ha. cbn [bind].
  assert (Hsg : (if is_pos O c then lit " + " else lit " - ") = [ch " "; sgn c; ch " "]) by (unfold sgn; destruct (is_pos O c); reflexivity).
  assert (Hss : is_sign (sgn c) = true) by (unfold sgn; destruct (is_pos O c); reflexivity).
  assert (Hsn : forallb is_numch [sgn c] = true) by (unfold sgn; destruct (is_pos O c); reflexivity).
  rewrite Hsg.
  assert (Hstep : forall body sp, term_from_str O X ((sgn c :: ch " " :: body) ++ sp) = term_loop O X (body ++ sp) [sgn c] (one O) false false).
  { intros body sp. unfold term_from_str. change ((sgn c :: ch " " :: body) ++ sp) with ([sgn c] ++ [ch " "] ++ (body ++ sp)).
    rewrite term_loop_num by exact Hsn. rewrite term_loop_sep by reflexivity. reflexivity. }
  destruct (N.eqb_spec d 0) as [->|Hd0].
  - exists (show X a). split; [reflexivity|]. split; [apply plain_nosign, Hp|]. intros sp Hs. rewrite Hstep.
    rewrite term_loop_num by (apply plain_num, Hp). rewrite <- (app_nil_r sp), term_loop_sep by exact Hs.
    cbn [term_loop app]. unfold term_finish. rewrite Hc. reflexivity.
  - exists ((if negb (is_one O a) then show X a else []) ++ show_x d). split; [reflexivity|].
    split.
    { apply nosign_app. split; [|apply show_x_nosign]. destruct (negb (is_one O a)); [apply plain_nosign, Hp|reflexivity]. }
    intros sp Hs. rewrite Hstep, <- app_assoc. unfold is_one. destruct (eqb O a (one O)) eqn:Eo; cbn [negb].
    + cbn [app]. apply parse_show_x; [lia|exact Hs|]. apply coeff_at_x_sign; [exact Hss|auto].
    + rewrite term_loop_num by (apply plain_num, Hp). cbn [app]. apply parse_show_x; [lia|exact Hs|].
      apply coeff_at_x_num; [discriminate| |exact Hc]. intros x E. injection E as _ E. congruence.
Qed.

Definition term_ok (t : T * N) : Prop := is_zero O (fst t) = false /\ (snd t <= USIZE_MAX)%N.

Lemma term_new_nz c d : is_zero O c = false -> term_new O c d = TTerm c d.
Proof. intros H. unfold term_new. rewrite H. reflexivity. Qed.

(** The tail, when the current token [cur] parses to [(c0, d0)] with or without blanks. *)
Lemma trailing_tokens ts : forall cur c0 d0, cur <> [] ->
  (forall sp, forallb is_sep sp = true -> term_from_str O X (cur ++ sp) = inl (TTerm c0 d0)) ->
  Forall (fun t => term_ok t /\ trail_ok (fst t)) ts -> forall acc,
  exists s, foldM (fun acc t => s <- trailing_term O X (fst t) (snd t) ;; Ok (acc ++ s)) acc ts = Ok (acc ++ s) /\
    parse_all O X (split_tok true cur s) = ((c0, d0) :: ts, None).
Proof.
  induction ts as [|[c d] ts IH]; intros cur c0 d0 Hne Hcur Hts acc; cbn [foldM].
  - exists []. rewrite app_nil_r. split; [reflexivity|]. cbn [split_tok].
    destruct cur as [|x cur]; [congruence|]. cbn [parse_all]. specialize (Hcur [] eq_refl). rewrite app_nil_r in Hcur. rewrite Hcur. reflexivity.
  - inversion Hts as [|? ? [[Hz Hd] Ht] Hts']; subst. cbn [fst snd] in *.
    destruct (trailing_spec c d Ht Hd) as (body & E & Hn & Hp). rewrite E. cbn [bind].
    destruct (IH (sgn c :: ch " " :: body) c d) with (acc := acc ++ ch " " :: sgn c :: ch " " :: body) as (s & E2 & P2).
    + discriminate.
    + intros sp Hs. rewrite Hp by exact Hs. rewrite term_new_nz by exact Hz. reflexivity.
    + exact Hts'.
    + exists ((ch " " :: sgn c :: ch " " :: body) ++ s). split; [rewrite E2, <- app_assoc; reflexivity|].
      change ((ch " " :: sgn c :: ch " " :: body) ++ s) with ([ch " "] ++ sgn c :: (ch " " :: body) ++ s).
      rewrite split_run by reflexivity. cbn [split_tok].
      assert (Hss : is_sign (sgn c) = true) by (unfold sgn; destruct (is_pos O c); reflexivity). rewrite Hss.
      rewrite split_run by (apply (nosign_app [ch " "]); split; [reflexivity|exact Hn]).
      cbn [parse_all]. rewrite Hcur by reflexivity. change ([sgn c] ++ ch " " :: body) with (sgn c :: ch " " :: body). rewrite P2. reflexivity.
Qed.

Definition tail_ok (ts : list (T * N)) : Prop := Forall (fun t => trail_ok (fst t)) (tl ts).

Definition head_ok (ts : list (T * N)) : Prop := match ts with [] => True | t :: _ => lead_ok (fst t) end.

Lemma show_terms_parse ts : ts <> [] -> Forall term_ok ts -> head_ok ts -> tail_ok ts ->
  exists s, show_terms O X ts = Ok s /\ s <> [] /\ parse_all O X (tokens s) = (ts, None).
Proof.
  intros Hne Hok Hh Ht. destruct ts as [|[c d] ts]; [congruence|]. cbn [show_terms tl head_ok fst] in *. unfold tail_ok in Ht. cbn [tl] in Ht.
  inversion Hok as [|? ? [Hz Hd] Hok']; subst. cbn [fst snd] in *.
  destruct (leading_first c d Hh) as (x & u & E & Hw & Hu).
  destruct (trailing_tokens ts (leading_term O X c d) c d) with (acc := leading_term O X c d) as (s & E1 & E2).
  - rewrite E. discriminate.
  - intros sp Hs. rewrite parse_leading by assumption. rewrite term_new_nz by exact Hz. reflexivity.
  - rewrite Forall_forall in *. intros t Hi. split; auto.
  - exists (leading_term O X c d ++ s). split; [exact E1|]. split; [rewrite E; discriminate|].
    unfold tokens. rewrite E. rewrite split_first by assumption. rewrite <- E. exact E2.
Qed.
End Show.

(** ** Integers *)
Lemma int_lead_ok chk t c : lead_ok (int_num chk t) (int_txt t) c.
Proof.
  unfold lead_ok. split; [|split; [|split]].
  - intros H. cbn in H. apply int_eq. cbn. lia.
  - cbn [show int_txt]. unfold show_Z. destruct (ival c <? 0)%Z.
    + destruct (show_N_spec (Z.to_N (- ival c))) as (A & B & _). eexists. split; [apply digits_plain; [exact A|exact B]|right; reflexivity].
    + destruct (show_N_spec (Z.to_N (ival c))) as (A & B & _). eexists. split; [apply digits_plain; [exact A|exact B]|left; reflexivity].
  - cbn [show parse int_txt]. rewrite parse_show_Z by apply ival_ok. f_equal. apply mk_int_ival.
  - intros H. cbn [is_neg_one int_num] in H. destruct (signed t) eqn:Es; [|discriminate]. cbn [parse int_txt].
    change (lit "-1") with (ch "-" :: [ch "1"]). rewrite parse_Z_minus by (try discriminate; try reflexivity; exact Es).
    change (dval 0 [ch "1"]) with 1%Z. assert (E : in_range t (-1) = true) by (destruct t; try discriminate Es; reflexivity).
    change (- (1))%Z with (-1)%Z. rewrite E. f_equal. apply int_eq. rewrite ival_mk_int by exact E. lia.
Qed.

(** Every coefficient but the minimum of a signed type prints in trailing position. *)
Lemma int_trail_ok chk t c : ival c <> 0%Z -> (signed t = true -> ival c <> imin t) -> trail_ok (int_num chk t) (int_txt t) c.
Proof.
  intros Hz Hm. pose proof (ival_ok c) as Hr.
  assert (Ha : exists a, absv (int_num chk t) c = Ok a /\ ival a = Z.abs (ival c)).
  { cbn [absv int_num]. destruct (signed t) eqn:Es.
    - assert (E : in_range t (Z.abs (ival c)) = true).
      { specialize (Hm eq_refl). unfold in_range, imin, imax in *. rewrite Es in *. lia. }
      unfold arith. rewrite E. eexists. split; [reflexivity|]. apply ival_mk_int, E.
    - exists c. split; [reflexivity|]. unfold in_range, imin in Hr. rewrite Es in Hr. lia. }
  destruct Ha as (a & Ha & Hv). exists a. split; [exact Ha|].
  assert (Hs : show (int_txt t) a = show_N (Z.to_N (Z.abs (ival c)))).
  { cbn [show int_txt]. unfold show_Z. rewrite Hv. destruct (Z.ltb_spec (Z.abs (ival c)) 0); [lia|reflexivity]. }
  rewrite Hs. destruct (show_N_spec (Z.to_N (Z.abs (ival c)))) as (A & B & C & _).
  rewrite Z2N.id in C by lia.
  assert (G : forall b, b <> [] -> forallb is_digit b = true -> dval 0 b = Z.abs (ival c) ->
              parse (int_txt t) (sgn (int_num chk t) c :: b) = Some c).
  { intros b Hb Hd Hval. cbn [parse int_txt]. unfold sgn. cbn [is_pos int_num]. destruct (Z.ltb_spec 0 (ival c)).
    - rewrite parse_Z_plus by assumption. rewrite Hval, Z.abs_eq by lia. rewrite Hr. f_equal. apply mk_int_ival.
    - assert (Es : signed t = true) by (destruct (signed t) eqn:Es; [reflexivity|unfold in_range, imin in Hr; rewrite Es in Hr; lia]).
      rewrite parse_Z_minus by assumption. rewrite Hval, Z.abs_neq, Z.opp_involutive by lia. rewrite Hr. f_equal. apply mk_int_ival. }
  split; [apply digits_plain; assumption|]. split; [apply G; assumption|].
  intros H1. cbn [eqb one int_num] in H1. apply G; [discriminate|reflexivity|]. change (dval 0 [ch "1"]) with 1%Z.
  rewrite <- Hv. rewrite ival_mk_int in H1; [lia|]. unfold in_range. pose proof (imin_max t). lia.
Qed.

(** ** Adding distinct terms to zero *)
Section Distinct.
Context {T P : Type} (R : comring) (den : T -> car R) (inv : P -> Prop) (rd : P -> poly R) (S : mutpoly T P).
Context (HS : sink_laws R den S inv rd) (okd : N -> Prop) (okd_max : forall d, okd d -> (d <= USIZE_MAX)%N).
Context (Hadd : forall p c d, inv p -> okd d -> rd p (N.to_nat d) = r0 -> exists r, s_add S p c d = Ok (r, None)).
Add Ring Rring_st : (r_theory R).

Lemma apply_distinct ts : forall p, inv p -> StronglySorted (fun a b => (snd b < snd a)%N) ts ->
  Forall (fun t => okd (snd t)) ts -> (forall t, In t ts -> rd p (N.to_nat (snd t)) = r0) ->
  exists r, apply_terms (s_add S) ts p = Ok (r, None) /\ inv r /\ peq (rd r) (padd (rd p) (terms_coef (dterms R den ts))).
Proof.
  induction ts as [|[c d] ts IH]; intros p Hp Hs Hd Hz; cbn [apply_terms].
  - exists p. split; [reflexivity|]. split; [exact Hp|]. intros i. unfold padd. cbn [dterms map terms_coef]. unfold pzero. ring.
  - inversion Hs as [|? ? Hs' Hlt]; subst. inversion Hd as [|? ? Hd1 Hd']; subst. cbn [snd] in *.
    destruct (Hadd p c d Hp Hd1 (Hz (c, d) (or_introl eq_refl))) as (q & Hq). rewrite Hq. cbn [bind fst snd].
    destruct (sk_add _ _ _ _ _ HS p c d q None Hp (okd_max d Hd1) Hq) as [Iq Cq].
    destruct (IH q Iq Hs' Hd') as (r & Hr & Ir & Cr).
    + intros t Ht. rewrite (Cq (N.to_nat (snd t))). unfold padd. rewrite (Hz t) by (right; exact Ht).
      rewrite Forall_forall in Hlt. specialize (Hlt t Ht). cbn [snd] in Hlt. unfold pmono.
      destruct (Nat.eqb_spec (N.to_nat (snd t)) (N.to_nat d)); [lia|ring].
    + exists r. split; [exact Hr|]. split; [exact Ir|]. intros i. rewrite (Cr i). unfold padd. rewrite (Cq i). unfold padd.
      cbn [dterms map terms_coef fst snd]. fold (dterms R den ts). unfold padd. ring.
Qed.
End Distinct.

Lemma sorted_dterms {T} (R : comring) (den : T -> car R) ts :
  StronglySorted (fun a b => (snd b < snd a)%N) (dterms R den ts) -> StronglySorted (fun a b : T * N => (snd b < snd a)%N) ts.
Proof.
  induction ts as [|t ts IH]; intros H; [constructor|]. cbn [dterms map] in H. inversion H as [|? ? H1 H2]; subst.
  constructor; [apply IH, H1|]. rewrite Forall_forall in *. intros u Hu. apply (H2 (den (fst u), snd u)).
  apply in_map_iff. exists u. auto.
Qed.
