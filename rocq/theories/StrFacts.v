(** Facts about decimal conversion, tokenising, term parsing and printing (Strs.v). *)

From Coq Require Import String Ascii List NArith ZArith Lia Bool Arith.
From Coq Require Import ZifyBool ZifyNat ZifyN.
From Verif Require Import Base Num Spec SpecFacts Laws Terms PolyMath Strs.
Import ListNotations.

(** ** Decimal numbers *)

Definition is_digit (c : N) : bool := ((48 <=? c) && (c <=? 57))%N.
(** The value of a digit string. *)
Fixpoint dval (acc : Z) (s : str) : Z :=
  match s with [] => acc | c :: s' => dval (acc * 10 + (Z.of_N c - 48)) s' end.

Lemma dval_shift s : forall a b, dval (a + b) s = (a * 10 ^ Z.of_nat (length s) + dval b s)%Z.
Proof.
  induction s as [|c s IH]; intros a b; cbn [dval length].
  - rewrite Z.pow_0_r. lia.
  - replace ((a + b) * 10 + (Z.of_N c - 48))%Z with (a * 10 + (b * 10 + (Z.of_N c - 48)))%Z by lia.
    rewrite IH. rewrite Nat2Z.inj_succ, Z.pow_succ_r by lia. lia.
Qed.

Lemma dval_mono s : forallb is_digit s = true -> forall a, (0 <= a -> a <= dval a s)%Z.
Proof.
  induction s as [|c s IH]; cbn [forallb dval]; intros H a Ha; [lia|].
  apply andb_true_iff in H. destruct H as [H1 H2]. unfold is_digit in H1.
  etransitivity; [|apply IH; [exact H2|lia]]. lia.
Qed.

(** checked accumulation succeeds exactly when the text is digits and the value fits *)
Lemma parse_digits_pos t s : forall a, (0 <= a)%Z -> in_range t a = true ->
  parse_digits t 1 a s = if forallb is_digit s && in_range t (dval a s) then Some (dval a s) else None.
Proof.
  induction s as [|c s IH]; intros a Ha Hr; cbn [parse_digits forallb dval].
  - rewrite Hr. reflexivity.
  - unfold checked, to_digit. fold (is_digit c). destruct (is_digit c) eqn:Ec; cbn [andb].
    2:{ destruct (in_range t (a * 10)); reflexivity. }
    assert (Hc : (48 <= c <= 57)%N) by (unfold is_digit in Ec; lia).
    rewrite Z.mul_1_l. pose proof (imin_max t) as Hi.
    destruct (in_range t (a * 10 + (Z.of_N c - 48))) eqn:E2.
    + assert (E1 : in_range t (a * 10) = true) by (unfold in_range in *; lia). rewrite E1, E2. apply IH; [lia|exact E2].
    + transitivity (@None Z); [destruct (in_range t (a * 10)); [rewrite E2|]; reflexivity|].
      destruct (forallb is_digit s) eqn:Es; cbn [andb]; [|reflexivity].
      pose proof (dval_mono s Es (a * 10 + (Z.of_N c - 48)) ltac:(lia)).
      assert (E3 : in_range t (dval (a * 10 + (Z.of_N c - 48)) s) = false) by (unfold in_range in *; lia).
      rewrite E3. reflexivity.
Qed.

Lemma parse_digits_neg t s : forall a, (0 <= a)%Z -> in_range t (- a) = true ->
  parse_digits t (-1) (- a) s = if forallb is_digit s && in_range t (- dval a s) then Some (- dval a s)%Z else None.
Proof.
  induction s as [|c s IH]; intros a Ha Hr; cbn [parse_digits forallb dval].
  - rewrite Hr. reflexivity.
  - unfold checked, to_digit. fold (is_digit c). destruct (is_digit c) eqn:Ec; cbn [andb].
    2:{ destruct (in_range t (- a * 10)); reflexivity. }
    assert (Hc : (48 <= c <= 57)%N) by (unfold is_digit in Ec; lia).
    assert (Hx : (- a * 10 + -1 * (Z.of_N c - 48))%Z = (- (a * 10 + (Z.of_N c - 48)))%Z) by lia.
    pose proof (imin_max t) as Hi.
    destruct (in_range t (- (a * 10 + (Z.of_N c - 48)))) eqn:E2.
    + assert (E1 : in_range t (- a * 10) = true) by (unfold in_range in *; lia). rewrite E1, Hx, E2. rewrite IH; [reflexivity|lia|exact E2].
    + transitivity (@None Z); [destruct (in_range t (- a * 10)); [rewrite Hx, E2|]; reflexivity|].
      destruct (forallb is_digit s) eqn:Es; cbn [andb]; [|reflexivity].
      pose proof (dval_mono s Es (a * 10 + (Z.of_N c - 48)) ltac:(lia)).
      assert (E3 : in_range t (- dval (a * 10 + (Z.of_N c - 48)) s) = false) by (unfold in_range in *; lia).
      rewrite E3. reflexivity.
Qed.

(** [digits_loop] writes the decimal expansion in front of [acc]. *)
Lemma digits_loop_spec f : forall n acc, (n < 10 ^ N.of_nat f)%N -> (0 < f)%nat ->
  exists ds, digits_loop f n acc = ds ++ acc /\ ds <> [] /\ forallb is_digit ds = true /\ dval 0 ds = Z.of_N n /\
    (n <> 0%N -> hd 0%N ds <> 48%N).
Proof.
  induction f as [|f IH]; intros n acc Hn Hf; [lia|]. cbn [digits_loop].
  assert (Hm : (n mod 10 < 10)%N) by (apply N.mod_lt; lia). pose proof (N.div_mod' n 10) as Hd.
  destruct (N.eqb_spec (n / 10) 0) as [E|E].
  - exists [digit (n mod 10)]. split; [reflexivity|]. split; [discriminate|]. split; [unfold is_digit, digit; cbn [forallb]; lia|].
    split; [cbn [dval]; unfold digit; lia|]. cbn [hd]. unfold digit. lia.
  - destruct (Nat.eq_dec f 0) as [->|Hf0].
    { exfalso. apply E, N.div_small. cbn in Hn. lia. }
    destruct (IH (n / 10)%N (digit (n mod 10) :: acc)) as (ds & E1 & E2 & E3 & E4 & E5).
    + rewrite Nat2N.inj_succ, N.pow_succ_r' in Hn. apply N.div_lt_upper_bound; lia.
    + lia.
    + exists (ds ++ [digit (n mod 10)]). rewrite E1, <- app_assoc. split; [reflexivity|].
      split; [destruct ds; discriminate|]. split.
      * rewrite forallb_app, E3. unfold is_digit, digit. cbn [forallb]. lia.
      * split.
        -- assert (A : forall ds a, dval a (ds ++ [digit (n mod 10)]) = (dval a ds * 10 + Z.of_N (n mod 10))%Z).
           { clear. induction ds as [|c ds IH]; intros a; cbn [app dval]; [unfold digit; lia|apply IH]. }
           rewrite A, E4. lia.
        -- intros _. destruct ds; [congruence|]. cbn in *. auto.
Qed.

Lemma show_N_spec n : show_N n <> [] /\ forallb is_digit (show_N n) = true /\ dval 0 (show_N n) = Z.of_N n /\
  (n <> 0%N -> hd 0%N (show_N n) <> 48%N).
Proof.
  unfold show_N. destruct (digits_loop_spec (S (N.to_nat (N.size n))) n []) as (ds & E1 & E2 & E3 & E4 & E5).
  - rewrite Nat2N.inj_succ, N2Nat.id. pose proof (N.size_gt n) as H.
    eapply N.lt_le_trans; [exact H|]. etransitivity; [apply N.pow_le_mono_l; instantiate (1 := 10%N); lia|].
    apply N.pow_le_mono_r; lia.
  - lia.
  - rewrite E1, app_nil_r. auto.
Qed.

Lemma digit_not_sign c : is_digit c = true -> is_sign c = false /\ is_numch c = true /\ is_sep c = false /\ is_ws c = false.
Proof.
  unfold is_digit, is_sign, is_numch, is_sep, is_ws. change (ch "+") with 43%N. change (ch "-") with 45%N.
  change (ch ".") with 46%N. change (ch "0") with 48%N. change (ch "9") with 57%N. change (ch " ") with 32%N.
  change (ch ",") with 44%N. change (ch "_") with 95%N. lia.
Qed.

(** An optional sign and at least one digit, with a value in range. *)
Lemma parse_Z_unsigned t s : s <> [] -> forallb is_digit s = true -> 
  parse_Z t s = if in_range t (dval 0 s) then Some (dval 0 s) else None.
Proof.
  intros Hs Hd. assert (H0 : in_range t 0 = true) by (unfold in_range; pose proof (imin_max t); lia).
  destruct s as [|c s]; [congruence|]. pose proof Hd as Hd'. cbn [forallb] in Hd'. apply andb_true_iff in Hd'. destruct Hd' as [Hc Hs'].
  destruct (digit_not_sign c Hc) as (Hn & _). unfold is_sign in Hn. apply orb_false_iff in Hn. destruct Hn as [Hn1 Hn2].
  unfold parse_Z. rewrite Hn1, Hn2. cbn [orb andb].
  rewrite (parse_digits_pos t (c :: s) 0 ltac:(lia) H0), Hd. cbn [andb]. destruct s; reflexivity.
Qed.
Lemma parse_Z_plus t s : s <> [] -> forallb is_digit s = true ->
  parse_Z t (ch "+" :: s) = if in_range t (dval 0 s) then Some (dval 0 s) else None.
Proof.
  intros Hs Hd. assert (H0 : in_range t 0 = true) by (unfold in_range; pose proof (imin_max t); lia).
  destruct s as [|c s]; [congruence|]. unfold parse_Z. rewrite N.eqb_refl.
  rewrite (parse_digits_pos t (c :: s) 0 ltac:(lia) H0), Hd. reflexivity.
Qed.
Lemma parse_Z_minus t s : s <> [] -> forallb is_digit s = true -> signed t = true ->
  parse_Z t (ch "-" :: s) = if in_range t (- dval 0 s) then Some (- dval 0 s)%Z else None.
Proof.
  intros Hs Hd Ht. assert (H0 : in_range t (- 0) = true) by (unfold in_range; pose proof (imin_max t); lia).
  destruct s as [|c s]; [congruence|]. unfold parse_Z. change (ch "-" =? ch "+")%N with false.
  rewrite N.eqb_refl, Ht. cbn [andb].
  rewrite <- (Z.opp_0) at 1.
  rewrite (parse_digits_neg t (c :: s) 0 ltac:(lia) H0), Hd. reflexivity.
Qed.

Lemma parse_show_Z t z : in_range t z = true -> parse_Z t (show_Z z) = Some z.
Proof.
  intros Hr. unfold show_Z. destruct (Z.ltb_spec z 0) as [Hz|Hz].
  - destruct (show_N_spec (Z.to_N (- z))) as (H1 & H2 & H3 & _).
    assert (Ht : signed t = true).
    { destruct (signed t) eqn:E; [reflexivity|]. unfold in_range, imin in Hr. rewrite E in Hr. lia. }
    rewrite parse_Z_minus by assumption. rewrite H3, Z2N.id by lia. rewrite Z.opp_involutive, Hr. reflexivity.
  - destruct (show_N_spec (Z.to_N z)) as (H1 & H2 & H3 & _). rewrite parse_Z_unsigned by assumption.
    rewrite H3, Z2N.id by lia. rewrite Hr. reflexivity.
Qed.

Lemma parse_usize_show d : (d <= USIZE_MAX)%N -> parse_usize (show_N d) = Some d.
Proof.
  intros H. unfold parse_usize. destruct (show_N_spec d) as (H1 & H2 & H3 & _). rewrite parse_Z_unsigned by assumption.
  rewrite H3. assert (E : in_range Usize (Z.of_N d) = true) by (unfold in_range, imin, imax; cbn [signed bits]; unfold USIZE_MAX in H; lia).
  rewrite E. f_equal. lia.
Qed.

(** ** The tokenizer *)

(** The tokens as strings: a sign ends the current token once it has a non-blank character
    or a sign. *)
Fixpoint split_tok (seen : bool) (cur s : str) : list str :=
  match s with
  | [] => match cur with [] => [] | _ => [cur] end
  | c :: s' =>
    if is_sign c then
      if seen then cur :: split_tok true [c] s' else split_tok true (cur ++ [c]) s'
    else split_tok (seen || negb (is_ws c)) (cur ++ [c]) s'
  end.
Definition tokens (s : str) : list str := split_tok false [] s.

(** Consecutive ranges of the given lengths. *)
Fixpoint ranges_of (start : N) (toks : list str) : list (N * N) :=
  match toks with [] => [] | k :: ks => (start, (start + slen k)%N) :: ranges_of (start + slen k) ks end.

Lemma clen_pos c : (1 <= clen c)%N.
Proof. unfold clen. destruct (c <? 128)%N, (c <? 2048)%N, (c <? 65536)%N; lia. Qed.
Lemma slen_app a b : slen (a ++ b) = (slen a + slen b)%N.
Proof. induction a as [|c a IH]; cbn [app slen]; [reflexivity|]. rewrite IH. lia. Qed.
Lemma slen_0 s : slen s = 0%N <-> s = [].
Proof. destruct s as [|c s]; [split; reflexivity|]. cbn [slen]. pose proof (clen_pos c). split; [lia|discriminate]. Qed.

Lemma tok_ranges_spec s : forall fuel seen cur start len, (length s + 2 <= fuel)%nat ->
  len = (start + slen cur + slen s)%N ->
  tok_ranges fuel (MkTok (char_indices (start + slen cur) s) seen start len) = Ok (ranges_of start (split_tok seen cur s)).
Proof.
  induction s as [|c s IH]; intros fuel seen cur start len Hf Hl; destruct fuel as [|fuel]; try lia.
  - cbn [slen] in Hl. cbn [char_indices tok_ranges split_tok]. unfold tok_next. cbn [tk_chars tk_seen tk_start tk_len tok_next_loop].
    destruct cur as [|c cur].
    + assert (E : (start =? len)%N = true) by (cbn [slen] in Hl; lia). rewrite E. reflexivity.
    + pose proof (clen_pos c). assert (E : (start =? len)%N = false) by (cbn [slen] in Hl; lia). rewrite E. cbn [negb ranges_of].
      destruct fuel as [|fuel]; [cbn in Hf; lia|]. cbn [tok_ranges]. unfold tok_next. cbn [tk_chars tk_seen tk_start tk_len tok_next_loop].
      rewrite N.eqb_refl. cbn [negb bind]. replace len with (start + slen (c :: cur))%N by lia. reflexivity.
  - assert (Hc : forall x, (start + slen cur + clen x = start + slen (cur ++ [x]))%N) by (intros x; rewrite slen_app; cbn [slen]; lia).
    cbn [slen] in Hl.
    cbn [char_indices split_tok]. destruct (is_sign c) eqn:Es.
    + destruct seen.
      * cbn [tok_ranges]. unfold tok_next. cbn [tk_chars tk_seen tk_start tk_len tok_next_loop]. rewrite Es. cbn [ranges_of].
        replace (start + slen cur + clen c)%N with ((start + slen cur) + slen [c])%N by (cbn [slen]; lia).
        rewrite IH; [reflexivity|cbn in Hf; lia|cbn [slen]; lia].
      * rewrite <- (IH (S fuel) true (cur ++ [c]) start len); [|cbn in Hf; lia|rewrite slen_app; cbn [slen]; lia].
        cbn [tok_ranges]. unfold tok_next. cbn [tk_chars tk_seen tk_start tk_len tok_next_loop]. rewrite Es, Hc. reflexivity.
    + rewrite <- (IH (S fuel) (seen || negb (is_ws c)) (cur ++ [c]) start len); [|cbn in Hf; lia|rewrite slen_app; cbn [slen]; lia].
      cbn [tok_ranges]. unfold tok_next. cbn [tk_chars tk_seen tk_start tk_len tok_next_loop]. rewrite Es, Hc.
      destruct seen, (is_ws c); reflexivity.
Qed.

Lemma tok_ranges_tokens s : tok_ranges (tok_fuel s) (tok_new s) = Ok (ranges_of 0 (tokens s)).
Proof. unfold tok_fuel, tok_new, tokens. apply (tok_ranges_spec s _ false [] 0); [lia|cbn [slen]; lia]. Qed.

Lemma drop_bytes_app p s : drop_bytes (slen p) (p ++ s) = Ok s.
Proof.
  induction p as [|c p IH]; cbn [slen app drop_bytes]; [destruct s; reflexivity|]. pose proof (clen_pos c).
  destruct (N.eqb_spec (clen c + slen p) 0); [lia|]. destruct (N.leb_spec (clen c) (clen c + slen p)); [|lia].
  replace (clen c + slen p - clen c)%N with (slen p) by lia. exact IH.
Qed.
Lemma take_bytes_app p s : take_bytes (slen p) (p ++ s) = Ok p.
Proof.
  induction p as [|c p IH]; cbn [slen app take_bytes]; [destruct s; reflexivity|]. pose proof (clen_pos c).
  destruct (N.eqb_spec (clen c + slen p) 0); [lia|]. destruct (N.leb_spec (clen c) (clen c + slen p)); [|lia].
  replace (clen c + slen p - clen c)%N with (slen p) by lia. rewrite IH. reflexivity.
Qed.
Lemma slice_app p k s : slice (p ++ k ++ s) (slen p) (slen p + slen k) = Ok k.
Proof.
  unfold slice. destruct (N.leb_spec (slen p) (slen p + slen k)); [|lia]. rewrite drop_bytes_app. cbn [bind].
  replace (slen p + slen k - slen p)%N with (slen k) by lia. apply take_bytes_app.
Qed.

Lemma split_tok_concat s : forall seen cur, (seen = true -> cur <> []) -> concat (split_tok seen cur s) = cur ++ s.
Proof.
  induction s as [|c s IH]; intros seen cur Hc; cbn [split_tok].
  - destruct cur; [reflexivity|]. cbn [concat]. reflexivity.
  - destruct (is_sign c).
    + destruct seen.
      * cbn [concat]. rewrite IH by discriminate. reflexivity.
      * rewrite IH by (intros _ E; apply app_eq_nil in E; destruct E; discriminate). rewrite <- app_assoc. reflexivity.
    + rewrite IH by (intros _ E; apply app_eq_nil in E; destruct E; discriminate). rewrite <- app_assoc. reflexivity.
Qed.
Lemma tokens_concat s : concat (tokens s) = s.
Proof. apply (split_tok_concat s false []). discriminate. Qed.

(** ** Terms *)
Section Terms.
Context {T : Type} (O : num T) (X : txt T).

Definition clean (s : str) : str := filter (fun c => negb (is_sep c)) s.

Lemma term_loop_clean s : forall v c sx sc, term_loop O X s v c sx sc = term_loop O X (clean s) v c sx sc.
Proof.
  induction s as [|x s IH]; intros v c sx sc; [reflexivity|]. unfold clean. cbn [filter]. fold (clean s).
  cbn [term_loop]. destruct (is_sep x) eqn:E; cbn [negb]; [apply IH|]. cbn [term_loop]. rewrite E.
  destruct (is_numch x); [apply IH|]. destruct (x =? ch "x")%N.
  - destruct sx; [reflexivity|]. destruct (coeff_at_x X v c); [apply IH|reflexivity].
  - destruct (x =? ch "^")%N; [|reflexivity]. destruct sc; [reflexivity|]. destruct (negb sx); [reflexivity|apply IH].
Qed.

Lemma numch_sep c : is_numch c = true -> is_sep c = false.
Proof.
  unfold is_numch, is_sep. change (ch "+") with 43%N. change (ch "-") with 45%N.
  change (ch ".") with 46%N. change (ch "0") with 48%N. change (ch "9") with 57%N. change (ch " ") with 32%N.
  change (ch ",") with 44%N. change (ch "_") with 95%N. lia.
Qed.

Lemma term_loop_num n : forall s v c sx sc, forallb is_numch n = true ->
  term_loop O X (n ++ s) v c sx sc = term_loop O X s (v ++ n) c sx sc.
Proof.
  induction n as [|x n IH]; intros s v c sx sc H; [rewrite app_nil_r; reflexivity|].
  cbn [forallb] in H. apply andb_true_iff in H. destruct H as [H1 H2]. cbn [app term_loop].
  rewrite (numch_sep x H1), H1, IH by exact H2. rewrite <- app_assoc. reflexivity.
Qed.

Lemma term_loop_sep n : forall s v c sx sc, forallb is_sep n = true ->
  term_loop O X (n ++ s) v c sx sc = term_loop O X s v c sx sc.
Proof.
  induction n as [|x n IH]; intros s v c sx sc H; [reflexivity|].
  cbn [forallb] in H. apply andb_true_iff in H. destruct H as [H1 H2]. cbn [app term_loop]. rewrite H1. apply IH, H2.
Qed.

Lemma term_loop_x s v c sc : term_loop O X (ch "x" :: s) v c false sc =
  match coeff_at_x X v c with inr e => inr e | inl w => term_loop O X s [] w true sc end.
Proof. reflexivity. Qed.
Lemma term_loop_caret s v c : term_loop O X (ch "^" :: s) v c true false = term_loop O X s v c true true.
Proof. reflexivity. Qed.

(** ** Parsing a whole polynomial *)

(** The terms of the tokens up to the first that does not parse, and its error. *)
Fixpoint parse_all (toks : list str) : list (T * N) * option term_err :=
  match toks with
  | [] => ([], None)
  | k :: ks =>
    match term_from_str O X k with
    | inr e => ([], Some e)
    | inl ZeroTerm => parse_all ks
    | inl (TTerm c d) => let r := parse_all ks in ((c, d) :: fst r, snd r)
    end
  end.

Context {P : Type} (S : mutpoly T P).

Lemma from_str_loop_spec s toks : forall pre p, s = pre ++ concat toks ->
  from_str_loop O X S s (ranges_of (slen pre) toks) p =
  (r <- apply_terms (s_add S) (fst (parse_all toks)) p ;;
   match snd r with
   | Some e => Ok (inr (AddingTerm e))
   | None => match snd (parse_all toks) with Some e => Ok (inr (TermFromString e)) | None => Ok (inl (fst r)) end
   end).
Proof.
  induction toks as [|k ks IH]; intros pre p Hs; cbn [ranges_of from_str_loop parse_all fst snd apply_terms]; [reflexivity|].
  cbn [concat] in Hs. rewrite Hs at 1. rewrite slice_app. cbn [bind].
  assert (Hs' : s = (pre ++ k) ++ concat ks) by (rewrite <- app_assoc; exact Hs).
  assert (Hl : (slen pre + slen k)%N = slen (pre ++ k)) by (rewrite slen_app; reflexivity). rewrite Hl.
  destruct (term_from_str O X k) as [[|c d]|e]; cbn [fst snd apply_terms bind]; [apply IH, Hs'| |reflexivity].
  destruct (s_add S p c d) as [[q [e|]]| |]; cbn [bind fst snd]; try reflexivity. apply IH, Hs'.
Qed.

Lemma poly_from_str_spec z s : poly_from_str O X S z s =
  match s with
  | [] => Ok (inr NoTermsFound)
  | _ =>
    r <- apply_terms (s_add S) (fst (parse_all (tokens s))) z ;;
    match snd r with
    | Some e => Ok (inr (AddingTerm e))
    | None => match snd (parse_all (tokens s)) with Some e => Ok (inr (TermFromString e)) | None => Ok (inl (fst r)) end
    end
  end.
Proof.
  unfold poly_from_str. rewrite tok_ranges_tokens. cbn [bind]. pose proof (tokens_concat s) as Hc.
  destruct (tokens s) as [|k ks] eqn:Et.
  - cbn in Hc. subst s. reflexivity.
  - destruct s as [|c s]; [exfalso; cbn in Et; discriminate Et|].
    cbn [ranges_of]. change ((0%N, (0 + slen k)%N) :: ranges_of (0 + slen k) ks) with (ranges_of (slen []) (k :: ks)).
    apply from_str_loop_spec. rewrite Hc. reflexivity.
Qed.
End Terms.
