(** Text of f32/f64: [FromStr] and [Display] of core, as far as rustnomial uses them. *)

From Coq Require Import String Ascii List NArith ZArith Reals Lia Lra Bool Arith Sorted.
From Coq Require Import ZifyBool ZifyNat ZifyN.
From Flocq Require Import Core BinarySingleNaN.
From Verif Require Import Base Num Strs StrFacts StrShow Floats FloatFacts FloatCoef.
Import ListNotations.
Local Open Scope nat_scope.

(** ** FromStr *)

(** core::num::dec2flt, after the sign: digits with at most one point among them and at least
    one digit.  Result: the digits as a number and how many of them follow the point.
    terms.rs 57 passes on only signs, points and digits; "inf", "nan" and exponents, which
    core also reads, contain other characters and are left out. *)
Fixpoint dec_scan (s : str) (acc : Z) (dot : bool) (seen : bool) (k : nat) : option (Z * nat) :=
  match s with
  | [] => if seen then Some (acc, k) else None
  | c :: s' =>
    match to_digit c with
    | Some x => dec_scan s' (acc * 10 + x)%Z dot true (if dot then S k else k)
    | None => if (c =? ch ".")%N && negb dot then dec_scan s' acc true seen k else None
    end
  end.

Section Parse.
Context (f : fty).

(** The float nearest to n / 10^k, ties to even, with the sign [neg]; an infinity if that is
    out of range.  (core: "the closest representable value".) *)
Definition dec_round (neg : bool) (n : Z) (k : nat) : flt f :=
  match n with
  | Zpos p => SF2B _ (proj1 (Bdiv_correct_aux (fprec f) (femax f) _ _ mode_NE neg p 0 false (Z.to_pos (10 ^ Z.of_nat k)) 0))
  | _ => B754_zero neg
  end.

Definition float_parse_abs (neg : bool) (s : str) : option (flt f) :=
  match dec_scan s 0 false false 0 with Some (n, k) => Some (dec_round neg n k) | None => None end.

(** [<f32/f64 as FromStr>::from_str] *)
Definition float_parse (s : str) : option (flt f) :=
  match s with
  | c :: s' => if (c =? ch "+")%N then float_parse_abs false s'
               else if (c =? ch "-")%N then float_parse_abs true s'
               else float_parse_abs false s
  | [] => None
  end.
End Parse.

(** ** Specification of FromStr *)

(** A decimal literal: optional sign, digits, optional point and more digits; not all missing. *)
Inductive signs : bool -> str -> Prop :=
| sg_none : signs false []
| sg_plus : signs false (lit "+")
| sg_minus : signs true (lit "-").
Inductive literal : str -> bool -> str -> str -> Prop :=
| lit_int neg sg ip : signs neg sg -> forallb is_digit ip = true -> ip <> [] -> literal (sg ++ ip) neg ip []
| lit_dot neg sg ip fp : signs neg sg -> forallb is_digit ip = true -> forallb is_digit fp = true -> ip ++ fp <> [] ->
    literal (sg ++ ip ++ lit "." ++ fp) neg ip fp.

(** The number written, up to sign. *)
Definition written (ip fp : str) : R := (IZR (dval 0 (ip ++ fp)) / 10 ^ length fp)%R.

(** [x] is the float nearest to the number v, or an infinity if that is out of range. *)
Definition frnd (f : fty) (v : R) : R := round radix2 (SpecFloat.fexp (fprec f) (femax f)) ZnearestE v.
Definition nearest (f : fty) (neg : bool) (v : R) (x : flt f) : Prop :=
  if Rlt_bool (Rabs (frnd f v)) (bpow radix2 (femax f))
  then is_finite x = true /\ B2R x = frnd f (if neg then - v else v) /\ Bsign x = neg
  else x = B754_infinity neg.

Lemma to_digit_spec c : to_digit c = if is_digit c then Some (Z.of_N c - 48)%Z else None.
Proof. reflexivity. Qed.
Lemma dval_app a b acc : dval acc (a ++ b) = dval (dval acc a) b.
Proof. revert acc. induction a as [|c a IH]; intros acc; [reflexivity|]. cbn. apply IH. Qed.

Lemma scan_digits s : forall t acc dot seen k, forallb is_digit s = true ->
  dec_scan (s ++ t) acc dot seen k = dec_scan t (dval acc s) dot (seen || negb (match s with [] => true | _ => false end)) (if dot then (length s + k) else k).
Proof.
  induction s as [|c s IH]; intros t acc dot seen k H.
  - cbn. rewrite orb_false_r. destruct dot; reflexivity.
  - cbn [forallb] in H. apply andb_true_iff in H. destruct H as [H1 H2]. cbn [app dec_scan]. rewrite to_digit_spec, H1, IH by exact H2.
    cbn [dval length negb]. rewrite orb_true_r. destruct dot, s; cbn [length]; f_equal; try lia; try reflexivity.
Qed.
Lemma scan_fwd s ip fp : (s = ip /\ fp = [] \/ s = ip ++ ch "." :: fp) -> forallb is_digit ip = true -> forallb is_digit fp = true -> ip ++ fp <> [] ->
  dec_scan s 0 false false 0 = Some (dval 0 (ip ++ fp), length fp).
Proof.
  intros [[-> ->]| ->] Hi Hf Hn.
  - rewrite app_nil_r in *. pose proof (scan_digits ip [] 0 false false 0 Hi) as E. rewrite app_nil_r in E. rewrite E.
    cbn. destruct ip; [congruence|reflexivity].
  - rewrite scan_digits by exact Hi. cbn [dec_scan]. rewrite to_digit_spec. change (is_digit (ch ".")) with false. cbv iota.
    rewrite N.eqb_refl. cbn [andb negb]. pose proof (scan_digits fp [] (dval 0 ip) true (false || negb match ip with [] => true | _ => false end) 0 Hf) as E.
    rewrite app_nil_r in E. rewrite E. cbn [dec_scan]. rewrite dval_app. replace (length fp + 0) with (length fp) by lia.
    destruct ip, fp; try reflexivity. cbn in Hn. congruence.
Qed.
Lemma scan_dot s : forall acc seen k n r, dec_scan s acc true seen k = Some (n, r) ->
  forallb is_digit s = true /\ (seen = true \/ s <> []).
Proof.
  induction s as [|c s IH]; intros acc seen k n r H; cbn [dec_scan] in H.
  - split; [reflexivity|]. left. destruct seen; congruence.
  - rewrite to_digit_spec in H. cbn [forallb]. destruct (is_digit c) eqn:E.
    + apply IH in H. split; [apply H|right; discriminate].
    + rewrite andb_false_r in H. discriminate H.
Qed.
Lemma scan_bwd s : forall acc seen k n r, dec_scan s acc false seen k = Some (n, r) ->
  exists ip fp, (s = ip /\ fp = [] \/ s = ip ++ ch "." :: fp) /\ forallb is_digit ip = true /\ forallb is_digit fp = true /\ (seen = true \/ ip ++ fp <> []).
Proof.
  induction s as [|c s IH]; intros acc seen k n r H; cbn [dec_scan] in H.
  - exists [], []. split; [left; auto|]. split; [reflexivity|]. split; [reflexivity|]. left. destruct seen; congruence.
  - rewrite to_digit_spec in H. destruct (is_digit c) eqn:E.
    + apply IH in H. destruct H as (ip & fp & Hs & Hi & Hf & _). exists (c :: ip), fp.
      split; [destruct Hs as [[-> ->]| ->]; [left; auto|right; reflexivity]|]. cbn [forallb]. rewrite E. split; [exact Hi|]. split; [exact Hf|]. right. discriminate.
    + destruct (N.eqb_spec c (ch ".")) as [->|]; [|discriminate H]. cbn [andb negb] in H. apply scan_dot in H. destruct H as [H1 H2].
      exists [], s. split; [right; reflexivity|]. split; [reflexivity|]. split; [exact H1|exact H2].
Qed.

Section ParseSpec.
Context (f : fty).

Lemma frnd_opp v : frnd f (- v) = (- frnd f v)%R.
Proof. unfold frnd. apply round_NE_opp. Qed.

Lemma dec_round_nearest neg n k : (0 <= n)%Z -> nearest f neg (IZR n / 10 ^ k) (dec_round f neg n k).
Proof.
  intros Hn. unfold nearest. destruct n as [|p|p]; [| |lia].
  - unfold Rdiv. rewrite Rmult_0_l. unfold frnd at 1. rewrite round_0, Rabs_R0 by apply valid_rnd_N. rewrite Rlt_bool_true by apply bpow_gt_0.
    cbn. split; [reflexivity|]. split; [|reflexivity]. unfold frnd. destruct neg; rewrite ?Ropp_0, round_0 by apply valid_rnd_N; reflexivity.
  - unfold dec_round. destruct (Bdiv_correct_aux (fprec f) (femax f) _ _ mode_NE neg p 0 false (Z.to_pos (10 ^ Z.of_nat k)) 0) as [V C].
    cbn [proj1]. revert C. cbv zeta. set (z := (let '(mz, ez, lz) := _ in _)) in *. 
    assert (Ey : F2R (Float radix2 (cond_Zopp false (Zpos (Z.to_pos (10 ^ Z.of_nat k)))) 0) = (10 ^ k)%R).
    { unfold F2R. cbn [cond_Zopp Fnum Fexp bpow]. rewrite Rmult_1_r. rewrite Z2Pos.id by (apply Z.pow_pos_nonneg; lia). rewrite pow_IZR. reflexivity. }
    assert (Ex : F2R (Float radix2 (cond_Zopp neg (Zpos p)) 0) = if neg then (- IZR (Zpos p))%R else IZR (Zpos p)).
    { unfold F2R. cbn [Fnum Fexp bpow]. rewrite Rmult_1_r. destruct neg; [apply opp_IZR|reflexivity]. }
    rewrite Ey, Ex. 
    assert (Ed : ((if neg then - IZR (Zpos p) else IZR (Zpos p)) / 10 ^ k = if neg then - (IZR (Zpos p) / 10 ^ k) else IZR (Zpos p) / 10 ^ k)%R).
    { destruct neg; [|reflexivity]. unfold Rdiv. ring. }
    rewrite Ed. change (round_mode mode_NE) with ZnearestE. fold (frnd f (if neg then - (IZR (Zpos p) / 10 ^ k) else IZR (Zpos p) / 10 ^ k)).
    assert (Ea : Rabs (frnd f (if neg then - (IZR (Zpos p) / 10 ^ k) else IZR (Zpos p) / 10 ^ k)) = Rabs (frnd f (IZR (Zpos p) / 10 ^ k))).
    { destruct neg; [rewrite frnd_opp, Rabs_Ropp|]; reflexivity. }
    rewrite Ea. destruct (Rlt_bool _ _).
    + intros (A & B & C). rewrite is_finite_SF2B, B2R_SF2B, Bsign_SF2B. rewrite xorb_false_r in C. auto.
    + intros K. apply B2SF_inj. rewrite B2SF_SF2B. rewrite K, xorb_false_r. reflexivity.
Qed.

Lemma nearest_unique neg v x y : nearest f neg v x -> nearest f neg v y -> x = y.
Proof.
  unfold nearest. destruct (Rlt_bool _ _); [|congruence]. intros (F1 & E1 & S1) (F2 & E2 & S2). apply B2R_Bsign_inj; congruence.
Qed.

(** A finite float is the nearest one to itself. *)
Lemma nearest_self x : is_finite x = true -> nearest f (Bsign x) (Rabs (B2R x)) x.
Proof.
  intros F. unfold nearest.
  assert (G : generic_format radix2 (SpecFloat.fexp (fprec f) (femax f)) (Rabs (B2R x))) by apply generic_format_abs, generic_format_B2R.
  unfold frnd at 1. rewrite round_generic by (exact G || apply valid_rnd_N). rewrite Rabs_Rabsolu, Rlt_bool_true by apply abs_B2R_lt_emax.
  split; [exact F|]. split; [|reflexivity].
  assert (E : (if Bsign x then - Rabs (B2R x) else Rabs (B2R x))%R = B2R x).
  { destruct x as [s|s| |s m e H]; try discriminate F; cbn [Bsign B2R].
    - rewrite Rabs_R0. destruct s; [apply Ropp_0|reflexivity].
    - rewrite <- F2R_Zabs, abs_cond_Zopp. destruct s; [|reflexivity]. rewrite <- F2R_Zopp. reflexivity. }
  rewrite E. unfold frnd. rewrite round_generic; [reflexivity|apply valid_rnd_N|apply generic_format_B2R].
Qed.

Lemma dval_nonneg s : forallb is_digit s = true -> (0 <= dval 0 s)%Z.
Proof. intros H. apply (dval_mono s H 0). lia. Qed.

Lemma parse_abs_spec neg s x : float_parse_abs f neg s = Some x <->
  exists ip fp, (s = ip /\ fp = [] \/ s = ip ++ ch "." :: fp) /\ forallb is_digit ip = true /\ forallb is_digit fp = true /\ ip ++ fp <> [] /\
    nearest f neg (written ip fp) x.
Proof.
  unfold float_parse_abs. split.
  - destruct (dec_scan s 0 false false 0) as [[n k]|] eqn:E; [|discriminate]. intros H. injection H as <-.
    destruct (scan_bwd s _ _ _ _ _ E) as (ip & fp & Hs & Hi & Hf & [Hn|Hn]); [discriminate|]. exists ip, fp. repeat (split; [assumption|]).
    rewrite (scan_fwd s ip fp Hs Hi Hf Hn) in E. injection E as <- <-. apply dec_round_nearest, dval_nonneg. rewrite forallb_app, Hi, Hf. reflexivity.
  - intros (ip & fp & Hs & Hi & Hf & Hn & H). rewrite (scan_fwd s ip fp Hs Hi Hf Hn). f_equal. eapply nearest_unique; [|exact H].
    apply dec_round_nearest, dval_nonneg. rewrite forallb_app, Hi, Hf. reflexivity.
Qed.

Lemma digit_head s c t : s = c :: t -> (is_digit c = true \/ c = ch ".") -> is_sign c = false.
Proof. intros _ [H| ->]; [apply digit_not_sign, H|reflexivity]. Qed.

(** FromStr reads exactly the decimal literals, as the nearest float. *)
Theorem float_parse_spec s x : float_parse f s = Some x <-> exists neg ip fp, literal s neg ip fp /\ nearest f neg (written ip fp) x.
Proof.
  split.
  - intros H. unfold float_parse in H. destruct s as [|c s]; [discriminate|].
    assert (G : forall neg sg u, signs neg sg -> float_parse_abs f neg u = Some x -> exists neg ip fp, literal (sg ++ u) neg ip fp /\ nearest f neg (written ip fp) x).
    { intros neg sg u Hg K. apply parse_abs_spec in K. destruct K as (ip & fp & Hs & Hi & Hf & Hn & K). exists neg, ip, fp. split; [|exact K].
      destruct Hs as [[-> ->]| ->]; [rewrite app_nil_r in Hn; apply lit_int; assumption|apply lit_dot; assumption]. }
    destruct (N.eqb_spec c (ch "+")) as [->|]; [apply (G _ (lit "+") _ sg_plus H)|].
    destruct (N.eqb_spec c (ch "-")) as [->|]; [apply (G _ (lit "-") _ sg_minus H)|]. apply (G _ [] _ sg_none H).
  - intros (neg & ip & fp & Hl & Hx).
    assert (G : forall sg u, signs neg sg -> (u = ip /\ fp = [] \/ u = ip ++ ch "." :: fp) -> forallb is_digit ip = true -> forallb is_digit fp = true -> ip ++ fp <> [] ->
              float_parse f (sg ++ u) = Some x).
    { intros sg u Hg Hu Hi Hf Hn. assert (K : float_parse_abs f neg u = Some x) by (apply parse_abs_spec; exists ip, fp; auto).
      destruct Hg; [|exact K|exact K]. cbn [app]. unfold float_parse. destruct u as [|c u].
      - destruct Hu as [[<- ->]|Hu]; [exfalso; apply Hn; reflexivity|]. destruct ip; discriminate Hu.
      - assert (Hc : is_sign c = false).
        { apply (digit_head (c :: u) c u eq_refl). destruct Hu as [[<- _]|Hu].
          - left. cbn in Hi. apply andb_true_iff in Hi. apply Hi.
          - destruct ip as [|c' ip]; cbn in Hu; injection Hu as -> _; [right; reflexivity|left]. cbn in Hi. apply andb_true_iff in Hi. apply Hi. }
        unfold is_sign in Hc. apply orb_false_iff in Hc. destruct Hc as [-> ->]. exact K. }
    destruct Hl as [neg sg ip Hg Hi Hn|neg sg ip fp Hg Hi Hf Hn].
    + apply G; auto. rewrite app_nil_r. exact Hn.
    + apply G; auto.
Qed.

Lemma literal_sign_irrelevant neg b : (forall c t, b = c :: t -> is_sign c = false) -> b <> [] ->
  float_parse f b = float_parse_abs f false b /\ float_parse f ((if neg : bool then ch "-" else ch "+") :: b) = float_parse_abs f neg b.
Proof.
  intros Hb Hn. split.
  - destruct b as [|c b]; [congruence|]. specialize (Hb c b eq_refl). unfold is_sign in Hb. apply orb_false_iff in Hb. unfold float_parse. destruct Hb as [-> ->]. reflexivity.
  - destruct neg; reflexivity.
Qed.
End ParseSpec.

(** ** Display *)

(** What the documentation of core says about [Display] of floats without precision: a finite
    float is written without exponent as digits, possibly with a point and more digits, with a
    minus sign in front if the sign bit is set; reading it back gives the same float.  Which of
    the possible digit strings is written (the shortest) is left open. *)
Record float_display (f : fty) (sh : flt f -> str) : Prop := {
  fd_finite : forall x, is_finite x = true -> exists ip fp,
    (sh (Babs x) = ip /\ fp = [] \/ sh (Babs x) = ip ++ ch "." :: fp) /\
    ip <> [] /\ forallb is_digit ip = true /\ forallb is_digit fp = true /\
    sh x = (if Bsign x then lit "-" else []) ++ sh (Babs x) /\
    float_parse f (sh x) = Some x;
  fd_inf : forall s, sh (B754_infinity s) = (if s then lit "-" else []) ++ lit "inf";
  fd_nan : sh B754_nan = lit "NaN"
}.

Definition float_txt (f : fty) (sh : flt f -> str) : txt (flt f) := MkTxt sh (float_parse f).

(** Such a function exists: all the digits of the exact value. *)
Definition exact_digits (m : positive) (e : Z) : str :=
  if (0 <=? e)%Z then show_N (Z.to_N (Zpos m * 2 ^ e))
  else let k := Z.to_nat (- e) in
       let ds := show_N (Z.to_N (Zpos m * 5 ^ (- e))) in
       let ds' := repeat (ch "0") (S k - length ds) ++ ds in
       firstn (length ds' - k) ds' ++ ch "." :: skipn (length ds' - k) ds'.
Definition show_exact (f : fty) (x : flt f) : str :=
  match x with
  | B754_zero s => (if s then lit "-" else []) ++ lit "0"
  | B754_infinity s => (if s then lit "-" else []) ++ lit "inf"
  | B754_nan => lit "NaN"
  | B754_finite s m e _ => (if s then lit "-" else []) ++ exact_digits m e
  end.

Lemma dval_zeros n acc : dval acc (repeat (ch "0") n) = (acc * 10 ^ Z.of_nat n)%Z.
Proof.
  revert acc. induction n as [|n IH]; intros acc; [cbn; lia|]. cbn [repeat dval]. rewrite IH.
  change (Z.of_N (ch "0") - 48)%Z with 0%Z. rewrite Nat2Z.inj_succ, Z.pow_succ_r by lia. ring.
Qed.
Lemma repeat_digits n : forallb is_digit (repeat (ch "0") n) = true.
Proof. induction n; [reflexivity|]. cbn. exact IHn. Qed.
Lemma forallb_firstn {A} (g : A -> bool) n l : forallb g l = true -> forallb g (firstn n l) = true /\ forallb g (skipn n l) = true.
Proof. intros H. rewrite <- (firstn_skipn n l), forallb_app in H. apply andb_true_iff in H. exact H. Qed.

Lemma exact_digits_spec m e : exists ip fp, (exact_digits m e = ip /\ fp = [] \/ exact_digits m e = ip ++ ch "." :: fp) /\
  ip <> [] /\ forallb is_digit ip = true /\ forallb is_digit fp = true /\ written ip fp = (IZR (Zpos m) * bpow radix2 e)%R.
Proof.
  unfold exact_digits. destruct (Z.leb_spec 0 e) as [He|He].
  - destruct (show_N_spec (Z.to_N (Zpos m * 2 ^ e))) as (A & B & C & _). eexists. exists []. split; [left; split; reflexivity|].
    split; [exact A|]. split; [exact B|]. split; [reflexivity|]. unfold written. rewrite app_nil_r, C. cbn [length pow]. unfold Rdiv. rewrite Rinv_1, Rmult_1_r.
    assert (0 < 2 ^ e)%Z by (apply Z.pow_pos_nonneg; lia). rewrite Z2N.id by lia. rewrite mult_IZR. f_equal. rewrite <- IZR_Zpower by exact He. reflexivity.
  - set (ds := show_N _). set (k := Z.to_nat (- e)). set (ds' := repeat (ch "0") (S k - length ds) ++ ds).
    assert (H5 : (0 < 5 ^ (- e))%Z) by (apply Z.pow_pos_nonneg; lia).
    destruct (show_N_spec (Z.to_N (Zpos m * 5 ^ (- e)))) as (A & B & C & _). fold ds in A, B, C. rewrite Z2N.id in C by lia.
    assert (Hd : forallb is_digit ds' = true) by (unfold ds'; rewrite forallb_app, repeat_digits, B; reflexivity).
    assert (Hl : S k <= length ds') by (unfold ds'; rewrite app_length, repeat_length; lia).
    assert (Hv : dval 0 ds' = (Zpos m * 5 ^ (- e))%Z) by (unfold ds'; rewrite dval_app, dval_zeros; cbn [Z.mul]; exact C).
    destruct (forallb_firstn is_digit (length ds' - k) ds' Hd) as [F1 F2].
    exists (firstn (length ds' - k) ds'), (skipn (length ds' - k) ds'). cbv zeta. split; [right; reflexivity|].
    split. { intros K. apply (f_equal (@length N)) in K. rewrite firstn_length in K. cbn [length] in K. lia. }
    split; [exact F1|]. split; [exact F2|]. unfold written. rewrite firstn_skipn, Hv, skipn_length.
    replace (length ds' - (length ds' - k)) with k by lia.
    replace e with (- Z.of_nat k)%Z at 2 by lia. rewrite bpow_opp, mult_IZR.
    replace (- e)%Z with (Z.of_nat k) by lia.
    assert (E5 : IZR (5 ^ Z.of_nat k) = (5 ^ k)%R) by (rewrite pow_IZR; reflexivity).
    assert (E2 : bpow radix2 (Z.of_nat k) = (2 ^ k)%R) by (rewrite <- IZR_Zpower by lia; rewrite pow_IZR; reflexivity).
    rewrite E5, E2. replace 10%R with (2 * 5)%R by lra. rewrite Rpow_mult_distr. 
    assert (N2 : (2 ^ k <> 0)%R) by (apply pow_nonzero; lra). assert (N5 : (5 ^ k <> 0)%R) by (apply pow_nonzero; lra). field. split; assumption.
Qed.

Lemma show_exact_display f : float_display f (show_exact f).
Proof.
  constructor; [|intros s; reflexivity|reflexivity]. intros x F.
  assert (G : exists ip fp, (show_exact f (Babs x) = ip /\ fp = [] \/ show_exact f (Babs x) = ip ++ ch "." :: fp) /\ ip <> [] /\
    forallb is_digit ip = true /\ forallb is_digit fp = true /\ written ip fp = Rabs (B2R x)).
  { destruct x as [s|s| |s m e H]; try discriminate F.
    - exists (lit "0"), []. split; [left; split; reflexivity|]. split; [discriminate|]. split; [reflexivity|]. split; [reflexivity|].
      cbn. rewrite Rabs_R0. unfold written. cbn. lra.
    - destruct (exact_digits_spec m e) as (ip & fp & Hs & Hn & Hi & Hf & Hw). exists ip, fp. cbn [Babs show_exact app]. repeat (split; [assumption|]).
      rewrite Hw. cbn [B2R]. rewrite <- F2R_Zabs, abs_cond_Zopp. reflexivity. }
  destruct G as (ip & fp & Hs & Hn & Hi & Hf & Hw). exists ip, fp. repeat (split; [assumption|]).
  assert (E : show_exact f x = (if Bsign x then lit "-" else []) ++ show_exact f (Babs x)) by (destruct x; reflexivity || discriminate F).
  split; [exact E|]. rewrite E. apply float_parse_spec. exists (Bsign x), ip, fp. rewrite Hw. split; [|apply nearest_self, F].
  assert (Hsg : signs (Bsign x) (if Bsign x then lit "-" else [])) by (destruct (Bsign x); constructor).
  destruct Hs as [[-> ->]| ->]; [apply lit_int; assumption|]. apply lit_dot; auto. destruct ip; [congruence|discriminate].
Qed.
