(** Property C88: the quotient and remainder of a float division recombine to the dividend. *)

From Coq Require Import List NArith ZArith Reals Lia Lra Bool Arith Sorted.
From Coq Require Import ZifyBool ZifyNat ZifyN.
From Flocq Require Import Core BinarySingleNaN Relative Plus_error Mult_error.
From Verif Require Import Base Num Spec SpecFacts Laws Terms Dense DenseFacts DenseArith DenseMul DenseDiv Coef.
From Verif Require Import RealNum Floats FloatFacts FloatErr FloatEval FloatMul FloatCoef FloatDiv P_FloatErr P_FloatDiv.
Import ListNotations.
Local Open Scope R_scope.

(** ** Specification *)

(** The real number held by a coefficient, and its magnitude. *)
Definition rc {f} (l : list (flt f)) (j : nat) : R := B2R (vcoef l j).
Definition ra {f} (l : list (flt f)) (j : nat) : R := Rabs (B2R (vcoef l j)).

(** The exact product of two lists of coefficients, and that of their magnitudes. *)
Definition exact_prod {f} (a b : list (flt f)) (j : nat) : R := @pmul R_ring (rc a) (rc b) j.
Definition abs_prod {f} (a b : list (flt f)) (j : nat) : R := @pmul R_ring (ra a) (ra b) j.

(** Multiplying with [l] undoes every division by [l] that does not overflow. *)
Definition undone {f} (l : flt f) : Prop := forall c : flt f, is_finite c = true -> is_finite (fdiv c l) = true ->
  is_finite (fmul l (fdiv c l)) = true /\ B2R (fmul l (fdiv c l)) = B2R c.

Definition finite_list {f} (l : list (flt f)) : Prop := Forall (fun x : flt f => is_finite x = true) l.

(** The dividend is the quotient times the divisor plus the remainder, up to what K rounds of
    rounding can do to numbers of the magnitudes that are added up. *)
Definition recombines {f} (p d q r : list (flt f)) (K : nat) : Prop := forall j,
  Rabs (rc p j - exact_prod q d j - rc r j) <=
    ((1 + uro f) ^ K - 1) * (abs_prod q d j + ra r j) + INR K * (1 + uro f) ^ K * eta f.

(** Every coefficient is a whole number. *)
Definition integral (x : R) : Prop := exists z : Z, x = IZR z.
Definition integral_list {f} (l : list (flt f)) : Prop := forall j, integral (rc l j).

(** ** One round *)

Section Generic.
Context {T : Type} (O : num T) (z : T).

Lemma vec_sub_cf lhs c sd rhs b m s r : first_term O lhs = TTerm c sd -> first_term O rhs = TTerm b m ->
  (m <= sd)%N -> vec_sub_w_scale O lhs sd rhs m s = Ok r ->
  length r = length lhs /\ cf z lhs (N.to_nat sd) = c /\
  (forall j, (j < N.to_nat (sd - m))%nat -> cf z r j = cf z lhs j) /\
  (forall j, (N.to_nat (sd - m) <= j <= N.to_nat sd)%nat -> sub_step O s (cf z lhs j) (cf z rhs (j - N.to_nat (sd - m))) = Ok (cf z r j)) /\
  (forall j, (N.to_nat sd < j)%nat -> cf z r j = cf z lhs j).
Proof.
  intros Hl Hr Hm H. rewrite (vec_sub_unfold _ _ _ _ _ _ _ _ Hl Hr) in H. inv_ok.
  pose proof (first_term_TTerm _ _ _ _ Hl) as (ql & Sl & Ll & Zc).
  pose proof (first_term_TTerm _ _ _ _ Hr) as (qr & Sr & Lr & Zb).
  destruct (strip_split O lhs) as (pl & El & Pl & Al & _).
  assert (Hpre : firstn (fnz O lhs) lhs = pl). { rewrite El at 2. rewrite <- Pl. apply firstn_length_app. }
  rewrite Hpre. clear Hpre. destruct (strip_split O rhs) as (pr & Er & _).
  pose proof (zipM_length _ _ _ _ E) as Hlen. unfold len in Ll, Lr.
  assert (HL : length (strip O lhs) = S (N.to_nat sd)) by (rewrite Sl; simpl; lia).
  assert (HR : length (strip O rhs) = S (N.to_nat m)) by (rewrite Sr; simpl; lia).
  rewrite zipM_prefix in E by lia. inv_ok.
  set (t1 := firstn (length (strip O rhs)) (strip O lhs)) in *.
  set (t2 := skipn (length (strip O rhs)) (strip O lhs)) in *.
  assert (H1 : length t1 = length (strip O rhs)) by (unfold t1; rewrite firstn_length; lia).
  assert (H2 : length t2 = N.to_nat (sd - m)) by (unfold t2; rewrite skipn_length; lia).
  assert (Ht : strip O lhs = t1 ++ t2) by (unfold t1, t2; symmetry; apply firstn_skipn).
  clearbody t1 t2. destruct (zipM_cf z _ _ _ _ H1 E0) as [Hv Hc].
  assert (Cl : forall j, cf z lhs j = if (j <? N.to_nat (sd - m))%nat then cf z t2 j else
     if (j <=? N.to_nat sd)%nat then cf z t1 (j - N.to_nat (sd - m)) else cf z pl (j - S (N.to_nat sd))).
  { intros j. rewrite El, Ht. rewrite cf_app. rewrite app_length, H2, H1, HR.
    destruct (Nat.ltb_spec j (S (N.to_nat m) + N.to_nat (sd - m))).
    - rewrite cf_app, H2. destruct (Nat.ltb_spec j (N.to_nat (sd - m))); [reflexivity|]. destruct (Nat.leb_spec j (N.to_nat sd)); [reflexivity|lia].
    - destruct (Nat.ltb_spec j (N.to_nat (sd - m))); [lia|]. destruct (Nat.leb_spec j (N.to_nat sd)); [lia|]. f_equal. lia. }
  assert (Cr : forall j, cf z (pl ++ v0 ++ t2) j = if (j <? N.to_nat (sd - m))%nat then cf z t2 j else
     if (j <=? N.to_nat sd)%nat then cf z v0 (j - N.to_nat (sd - m)) else cf z pl (j - S (N.to_nat sd))).
  { intros j. rewrite cf_app. rewrite app_length, H2, Hv, H1, HR.
    destruct (Nat.ltb_spec j (S (N.to_nat m) + N.to_nat (sd - m))).
    - rewrite cf_app, H2. destruct (Nat.ltb_spec j (N.to_nat (sd - m))); [reflexivity|]. destruct (Nat.leb_spec j (N.to_nat sd)); [reflexivity|lia].
    - destruct (Nat.ltb_spec j (N.to_nat (sd - m))); [lia|]. destruct (Nat.leb_spec j (N.to_nat sd)); [lia|]. f_equal. lia. }
  split; [|split; [|split; [|split]]].
  - rewrite El, Ht, !app_length. lia.
  - rewrite El, Sl, cf_app. cbn [length]. destruct (Nat.ltb_spec (N.to_nat sd) (S (length ql))); [|lia].
    rewrite cf_cons. destruct (Nat.eqb_spec (N.to_nat sd) (length ql)); [reflexivity|lia].
  - intros j Hj. rewrite Cl, Cr. destruct (Nat.ltb_spec j (N.to_nat (sd - m))); [reflexivity|lia].
  - intros j Hj. rewrite Cl, Cr. destruct (Nat.ltb_spec j (N.to_nat (sd - m))); [lia|]. destruct (Nat.leb_spec j (N.to_nat sd)); [|lia].
    rewrite <- (Hc (j - N.to_nat (sd - m))%nat) by lia. f_equal.
    rewrite Er at 1. rewrite cf_app. destruct (Nat.ltb_spec (j - N.to_nat (sd - m)) (length (strip O rhs))); [reflexivity|lia].
  - intros j Hj. rewrite Cl, Cr. destruct (Nat.ltb_spec j (N.to_nat (sd - m))); [lia|]. destruct (Nat.leb_spec j (N.to_nat sd)); [lia|reflexivity].
Qed.

(** Beyond the leading term the coefficients are zeros. *)
Lemma first_term_above l c sd : first_term O l = TTerm c sd -> forall j, (N.to_nat sd < j)%nat -> (j < length l)%nat -> is_zero O (cf z l j) = true.
Proof.
  intros Hl j Hj Hj'. pose proof (first_term_TTerm _ _ _ _ Hl) as (ql & Sl & Ll & Zc). unfold len in Ll.
  pose proof (strip_cf z O l j) as K. rewrite Sl in K. cbn [length] in K. destruct (Nat.ltb_spec j (S (length ql))); [lia|]. apply K, Hj'.
Qed.

(** The leading term is the highest coefficient that is not zero. *)
Lemma first_term_below l c sd k : first_term O l = TTerm c sd -> is_zero O z = true ->
  (forall j, (k <= j)%nat -> is_zero O (cf z l j) = true) -> (N.to_nat sd < k)%nat.
Proof.
  intros Hl Hz H. pose proof (first_term_TTerm _ _ _ _ Hl) as (ql & Sl & Ll & Zc). unfold len in Ll.
  destruct (Nat.lt_ge_cases (N.to_nat sd) k) as [|G]; [assumption|]. exfalso. specialize (H _ G).
  pose proof (strip_cf z O l (N.to_nat sd)) as K. rewrite Sl in K. cbn [length] in K. destruct (Nat.ltb_spec (N.to_nat sd) (S (length ql))); [|lia].
  rewrite <- K, cf_cons in H. destruct (Nat.eqb_spec (N.to_nat sd) (length ql)); [congruence|lia].
Qed.

Lemma update_cf (l r : list T) i s : update l i (fun _ => Ok s) = Ok r ->
  length r = length l /\ (N.to_nat i < length l)%nat /\
  forall j, cf z r j = if (j =? length l - 1 - N.to_nat i)%nat then s else cf z l j.
Proof.
  unfold update. destruct (_ <? _)%N; [|discriminate]. intros H. apply update_nat_spec in H.
  destruct H as (pre & x & post & y & -> & Hp & Hy & ->). apply Ok_inj in Hy. subst y. rewrite !app_length. cbn [length].
  split; [reflexivity|]. split; [lia|]. intros j. rewrite !cf_app, !cf_cons. cbn [length].
  destruct (Nat.eqb_spec j (length pre + S (length post) - 1 - N.to_nat i)) as [->|Hj].
  - destruct (Nat.ltb_spec (length pre + S (length post) - 1 - N.to_nat i) (S (length post))); [|lia].
    destruct (Nat.eqb_spec (length pre + S (length post) - 1 - N.to_nat i) (length post)); [reflexivity|lia].
  - destruct (Nat.ltb_spec j (S (length post))); [|reflexivity]. destruct (Nat.eqb_spec j (length post)); [lia|reflexivity].
Qed.
End Generic.

(** ** Rounds as a relation *)

Section Steps.
Context {f : fty}.
Notation prec := (fprec f).
Notation emax := (femax f).
Notation u := (uro f).
Notation fexp := (SpecFloat.fexp prec emax).
Notation rnd := (Generic_fmt.round radix2 fexp (round_mode mode_NE)).

(** The rounds of a division by [d] with leading coefficient [l]: each has a scale and a shift. *)
Inductive steps (d : list (flt f)) (l : flt f) : list (flt f) -> list (flt f * nat) -> list (flt f) -> Prop :=
| st_nil rem : steps d l rem [] rem
| st_cons rem rem1 rem' s k ss :
    (exists j, s = fdiv (vcoef rem j) l) -> is_finite s = true ->
    (forall j, is_finite (vcoef rem j) = true) -> (forall j, is_finite (vcoef rem1 j) = true) ->
    (forall j, (j < k)%nat -> vcoef rem1 j = vcoef rem j) ->
    (forall j, (k <= j)%nat -> vcoef rem1 j = fsub (vcoef rem j) (fmul (vcoef d (j - k)) s) \/
       (rc rem j = 0 /\ rc d (j - k) = 0 /\ rc rem1 j = 0)) ->
    steps d l rem1 ss rem' -> steps d l rem ((s, k) :: ss) rem'.

(** The quotient they make up. *)
Fixpoint qpoly (ss : list (flt f * nat)) : poly R_ring :=
  match ss with [] => pzero | (s, k) :: t => @padd R_ring (@pmono R_ring (B2R s) k) (qpoly t) end.
Fixpoint qabs (ss : list (flt f * nat)) : poly R_ring :=
  match ss with [] => pzero | (s, k) :: t => @padd R_ring (@pmono R_ring (Rabs (B2R s)) k) (qabs t) end.

Lemma q_cons s k ss (a : poly R_ring) j : @pmul R_ring (qpoly ((s, k) :: ss)) a j =
  (if (j <? k)%nat then 0 else B2R s * a (j - k)%nat) + @pmul R_ring (qpoly ss) a j.
Proof. cbn [qpoly]. rewrite (@pmul_padd_l R_ring _ _ a j). unfold padd. rewrite (@pmul_pmono_l R_ring _ _ a j). reflexivity. Qed.
Lemma qa_cons s k ss (a : poly R_ring) j : @pmul R_ring (qabs ((s, k) :: ss)) a j =
  (if (j <? k)%nat then 0 else Rabs (B2R s) * a (j - k)%nat) + @pmul R_ring (qabs ss) a j.
Proof. cbn [qabs]. rewrite (@pmul_padd_l R_ring _ _ a j). unfold padd. rewrite (@pmul_pmono_l R_ring _ _ a j). reflexivity. Qed.

Lemma q_bound ss (d : list (flt f)) j : Rabs (@pmul R_ring (qpoly ss) (rc d) j) <= @pmul R_ring (qabs ss) (ra d) j.
Proof.
  induction ss as [|[s k] ss IH].
  - cbn [qpoly qabs]. rewrite !(@pmul_zero_l R_ring pzero _ (fun _ => eq_refl) j). cbn. rewrite Rabs_R0. lra.
  - rewrite q_cons, qa_cons. eapply Rle_trans; [apply Rabs_triang|]. apply Rplus_le_compat; [|exact IH].
    destruct (j <? k)%nat; [rewrite Rabs_R0; lra|]. unfold rc, ra. rewrite Rabs_mult. lra.
Qed.
Lemma qa_pos ss (d : list (flt f)) j : 0 <= @pmul R_ring (qabs ss) (ra d) j.
Proof. eapply Rle_trans; [apply Rabs_pos|apply q_bound]. Qed.

(** The error of a difference, relative to the computed difference. *)
Lemma fsub_err_res (x y : flt f) : is_finite (fsub x y) = true ->
  Rabs (B2R x - B2R y - B2R (fsub x y)) <= u * Rabs (B2R (fsub x y)).
Proof.
  intros H. rewrite (fsub_round x y H).
  destruct (Rlt_or_le (Rabs (B2R x - B2R y)) (bpow radix2 (SpecFloat.emin prec emax + prec - 1))) as [K|K].
  - assert (G : generic_format radix2 fexp (B2R x - B2R y)).
    { unfold Rminus. apply (FLT_format_plus_small radix2 (SpecFloat.emin prec emax) prec).
      - apply generic_format_B2R.
      - apply generic_format_opp, generic_format_B2R.
      - apply Rlt_le. eapply Rlt_le_trans; [exact K|]. apply bpow_le. lia. }
    rewrite (round_generic radix2 fexp _ _ G). rewrite Rminus_diag_eq by reflexivity. rewrite Rabs_R0.
    apply Rmult_le_pos; [apply Rlt_le, uro_pos|apply Rabs_pos].
  - pose proof (relative_error_N_FLT_round radix2 (SpecFloat.emin prec emax) prec (fprec_pos f) (fun z : Z => negb (Z.even z)) _ K) as E.
    rewrite Rabs_minus_sym. eapply Rle_trans; [exact E|]. apply Rmult_le_compat_r; [apply Rabs_pos|].
    unfold uro. rewrite bpow_plus. change (bpow radix2 1) with 2. lra.
Qed.

Lemma step_err (x d s : flt f) : is_finite (fsub x (fmul d s)) = true ->
  Rabs (B2R x - B2R s * B2R d - B2R (fsub x (fmul d s))) <=
    u * Rabs (B2R (fsub x (fmul d s))) + u * (Rabs (B2R s) * Rabs (B2R d)) + eta f.
Proof.
  intros H. destruct (fsub_operands _ _ H) as [_ Hm]. pose proof (fsub_err_res _ _ H) as K1.
  destruct (fmul_err d s Hm) as (e & h & He & Hh & E). set (w := B2R (fsub x (fmul d s))) in *.
  replace (B2R x - B2R s * B2R d - w) with ((B2R x - B2R (fmul d s) - w) + (B2R d * B2R s * e + h)) by (rewrite E; ring).
  eapply Rle_trans; [apply Rabs_triang|]. pose proof (Rabs_triang (B2R d * B2R s * e) h) as K2.
  rewrite !Rabs_mult in K2. pose proof (Rabs_pos (B2R d)). pose proof (Rabs_pos (B2R s)).
  assert (Rabs (B2R d) * Rabs (B2R s) * Rabs e <= u * (Rabs (B2R s) * Rabs (B2R d))); [|lra].
  rewrite (Rmult_comm u), (Rmult_comm (Rabs (B2R s))). apply Rmult_le_compat_l; [apply Rmult_le_pos; assumption|exact He].
Qed.

Lemma growth (E g B t r1 w : R) (n : nat) : g = (1 + u) ^ n -> 0 <= B -> 0 <= t ->
  Rabs w <= B + E -> E = (g - 1) * B + INR n * g * eta f ->
  E + (u * Rabs w + u * t + eta f) <= ((1 + u) ^ S n - 1) * (t + B) + INR (S n) * (1 + u) ^ S n * eta f.
Proof.
  intros Hg HB Ht Hw HE. cbn [pow]. rewrite <- Hg, S_INR. pose proof (@uro_pos f) as U. pose proof (@eta_pos f) as P.
  assert (G : 1 <= g) by (rewrite Hg; apply pow_R1_Rle; lra).
  assert (N0 : 0 <= INR n) by apply pos_INR.
  assert (K : u * Rabs w <= u * (B + E)) by (apply Rmult_le_compat_l; lra).
  assert (K1 : 0 <= (g - 1) * t) by (apply Rmult_le_pos; lra).
  assert (K2 : 0 <= u * g * t - u * t).
  { replace (u * g * t - u * t) with (u * ((g - 1) * t)) by ring. apply Rmult_le_pos; lra. }
  assert (K3 : 0 <= ((1 + u) * g - 1) * eta f).
  { apply Rmult_le_pos; [|lra]. assert (0 <= u * g) by (apply Rmult_le_pos; lra). lra. }
  rewrite HE in *. nra.
Qed.

Lemma steps_err d l rem ss rem' : steps d l rem ss rem' -> forall j,
  Rabs (rc rem j - @pmul R_ring (qpoly ss) (rc d) j - rc rem' j) <=
    ((1 + u) ^ length ss - 1) * (@pmul R_ring (qabs ss) (ra d) j + ra rem' j) + INR (length ss) * (1 + u) ^ length ss * eta f.
Proof.
  induction 1 as [rem|rem rem1 rem' s k ss _ Fs F0 F1 Hlo Hhi Hss IH]; intros j.
  - cbn [qpoly qabs length INR pow]. rewrite !(@pmul_zero_l R_ring pzero _ (fun _ => eq_refl) j). cbn [pzero r0 R_ring].
    replace (rc rem j - 0 - rc rem j) with 0 by ring. rewrite Rabs_R0. lra.
  - specialize (IH j). pose proof (qa_pos ss d j) as HB. pose proof (q_bound ss d j) as HA.
    rewrite q_cons, qa_cons. cbn [length].
    set (A := @pmul R_ring (qpoly ss) (rc d) j) in *. set (B := @pmul R_ring (qabs ss) (ra d) j) in *.
    set (E := ((1 + u) ^ length ss - 1) * (B + ra rem' j) + INR (length ss) * (1 + u) ^ length ss * eta f) in *.
    set (t := if (j <? k)%nat then 0 else B2R s * rc d (j - k)).
    set (t' := if (j <? k)%nat then 0 else Rabs (B2R s) * ra d (j - k)).
    assert (Ht : 0 <= t').
    { unfold t'. destruct (j <? k)%nat; [lra|]. apply Rmult_le_pos; apply Rabs_pos. }
    assert (HR : 0 <= ra rem' j) by apply Rabs_pos.
    assert (Hw : Rabs (rc rem1 j) <= (B + ra rem' j) + E).
    { replace (rc rem1 j) with ((rc rem1 j - A - rc rem' j) + (A + rc rem' j)) by ring.
      eapply Rle_trans; [apply Rabs_triang|]. pose proof (Rabs_triang A (rc rem' j)) as K. change (Rabs (rc rem' j)) with (ra rem' j) in K. lra. }
    assert (Hr : Rabs (rc rem j - t - rc rem1 j) <= u * Rabs (rc rem1 j) + u * t' + eta f).
    { pose proof (@uro_pos f) as U. pose proof (@eta_pos f) as P.
      assert (Z : 0 <= u * Rabs (rc rem1 j) + u * t' + eta f).
      { pose proof (Rmult_le_pos u (Rabs (rc rem1 j)) (Rlt_le _ _ U) (Rabs_pos _)). pose proof (Rmult_le_pos u t' (Rlt_le _ _ U) Ht). lra. }
      unfold t, t' in *. destruct (Nat.ltb_spec j k) as [Hj|Hj].
      - unfold rc in *. rewrite (Hlo j Hj) in *. replace (B2R (vcoef rem j) - 0 - B2R (vcoef rem j)) with 0 by ring. rewrite Rabs_R0. exact Z.
      - destruct (Hhi j Hj) as [Ej|(E1 & E2 & E3)].
        + unfold rc, ra in *. specialize (F1 j). rewrite Ej in *. apply step_err, F1.
        + rewrite E1, E2, E3 in *. rewrite Rmult_0_r. replace (0 - 0 - 0) with 0 by ring. rewrite Rabs_R0 at 1. exact Z. }
    replace (rc rem j - (t + A) - rc rem' j) with ((rc rem1 j - A - rc rem' j) + (rc rem j - t - rc rem1 j)) by ring.
    eapply Rle_trans; [apply Rabs_triang|].
    replace (t' + B + ra rem' j) with (t' + (B + ra rem' j)) by ring.
    eapply Rle_trans; [apply Rplus_le_compat; [exact IH|exact Hr]|].
    apply (growth E ((1 + u) ^ length ss) (B + ra rem' j) t' 0 (rc rem1 j) (length ss)); [reflexivity|lra|exact Ht|exact Hw|reflexivity].
Qed.
End Steps.

(** ** The loops take such rounds *)

Section Loops.
Context (f : fty) (powi : flt f -> N -> flt f) (chk : bool).
Notation O := (float_num chk f powi).
Notation fin l := (forall j, is_finite (vcoef l j) = true).
Context (d : list (flt f)) (l : flt f) (m : N) (Hd : first_term O d = TTerm l m).

Lemma round_cf (rem rem1 : list (flt f)) c sd s : first_term O rem = TTerm c sd -> (m <= sd)%N ->
  vec_sub_w_scale O rem sd d m s = Ok rem1 ->
  vcoef rem (N.to_nat sd) = c /\ vcoef d (N.to_nat m) = l /\
  (forall j, (j < N.to_nat (sd - m))%nat -> vcoef rem1 j = vcoef rem j) /\
  (forall j, (N.to_nat (sd - m) <= j <= N.to_nat sd)%nat ->
     vcoef rem1 j = fsub (vcoef rem j) (fmul (vcoef d (j - N.to_nat (sd - m))) s)) /\
  (forall j, (N.to_nat sd < j)%nat -> vcoef rem1 j = vcoef rem j /\ is_zero O (vcoef rem j) = true) /\
  (forall j, (N.to_nat m < j)%nat -> is_zero O (vcoef d j) = true).
Proof.
  intros Hf Hm H. destruct (vec_sub_cf O (fzero f) rem c sd d l m s rem1 Hf Hd Hm H) as (H1 & H2 & H3 & H4 & H5).
  split; [exact H2|]. split.
  { pose proof (first_term_TTerm _ _ _ _ Hd) as (q & Sd & Ld & _). destruct (strip_split O d) as (pre & E & _). unfold len in Ld.
    change (cf (fzero f) d (N.to_nat m) = l). rewrite E, Sd, cf_app. cbn [length].
    destruct (Nat.ltb_spec (N.to_nat m) (S (length q))); [|lia]. rewrite cf_cons.
    destruct (Nat.eqb_spec (N.to_nat m) (length q)); [reflexivity|lia]. }
  split; [exact H3|]. split; [|split].
  - intros j Hj. specialize (H4 j Hj). rewrite sub_step_ok in H4. apply Ok_inj in H4. symmetry. exact H4.
  - intros j Hj. split; [apply H5, Hj|]. destruct (Nat.lt_ge_cases j (length rem)) as [G|G].
    + apply (first_term_above O (fzero f) rem c sd Hf j Hj G).
    + change (is_zero O (cf (fzero f) rem j) = true). rewrite cf_overflow by exact G. reflexivity.
  - intros j Hj. destruct (Nat.lt_ge_cases j (length d)) as [G|G].
    + apply (first_term_above O (fzero f) d l m Hd j Hj G).
    + change (is_zero O (cf (fzero f) d j) = true). rewrite cf_overflow by exact G. reflexivity.
Qed.

Lemma round_finite (rem rem1 : list (flt f)) c sd s : first_term O rem = TTerm c sd -> (m <= sd)%N ->
  vec_sub_w_scale O rem sd d m s = Ok rem1 -> fin rem1 -> fin rem /\ is_finite s = true.
Proof.
  intros Hf Hm H F1. destruct (round_cf rem rem1 c sd s Hf Hm H) as (_ & _ & H3 & H4 & H5 & _). split.
  - intros j. destruct (Nat.lt_ge_cases j (N.to_nat (sd - m))) as [G|G]; [rewrite <- H3 by exact G; apply F1|].
    destruct (Nat.le_gt_cases j (N.to_nat sd)) as [G'|G'].
    + specialize (F1 j). rewrite H4 in F1 by lia. apply fsub_operands in F1. apply F1.
    + rewrite <- (proj1 (H5 j G')). apply F1.
  - specialize (F1 (N.to_nat sd)). rewrite H4 in F1 by lia. apply fsub_operands in F1. destruct F1 as [_ F1].
    apply fmul_operands in F1. apply F1.
Qed.

Lemma zero_rc (x : flt f) : is_zero O x = true -> B2R x = 0.
Proof. intros H. apply feqb_zero in H. destruct H as (s & ->). reflexivity. Qed.

Lemma round_step (rem rem1 : list (flt f)) c sd : undone l -> first_term O rem = TTerm c sd -> (m <= sd)%N ->
  vec_sub_w_scale O rem sd d m (fdiv c l) = Ok rem1 -> fin rem1 ->
  (forall ss rem', steps d l rem1 ss rem' -> steps d l rem ((fdiv c l, N.to_nat (sd - m)) :: ss) rem') /\
  (forall c' sd', first_term O rem1 = TTerm c' sd' -> (sd' < sd)%N).
Proof.
  intros Hu Hf Hm H F1. destruct (round_finite rem rem1 c sd _ Hf Hm H F1) as [F0 Fs].
  destruct (round_cf rem rem1 c sd _ Hf Hm H) as (H1 & H2 & H3 & H4 & H5 & H6). split.
  - intros ss rem' Hss. apply (st_cons d l rem rem1); auto.
    + exists (N.to_nat sd). rewrite H1. reflexivity.
    + intros j Hj. destruct (Nat.le_gt_cases j (N.to_nat sd)) as [G|G]; [left; apply H4; lia|right].
      destruct (H5 j G) as [E1 E2]. unfold rc. rewrite E1. split; [apply zero_rc, E2|]. split; [|apply zero_rc, E2].
      apply zero_rc, H6. lia.
  - intros c' sd' Hf'. enough (N.to_nat sd' < N.to_nat sd)%nat by lia.
    apply (first_term_below O (fzero f) rem1 c' sd' (N.to_nat sd) Hf'); [reflexivity|].
    intros j Hj. change (cf (fzero f) rem1 j) with (vcoef rem1 j).
    destruct (Nat.eq_dec j (N.to_nat sd)) as [->|G].
    + rewrite H4 by lia. replace (N.to_nat sd - N.to_nat (sd - m))%nat with (N.to_nat m) by lia. rewrite H1, H2.
      assert (Fc : is_finite c = true) by (rewrite <- H1; apply F0).
      destruct (Hu c Fc Fs) as [Fm Em]. destruct (fsub_same f c (fmul l (fdiv c l)) Fc Fm) as [Fz Ez]; [symmetry; exact Em|].
      apply fis_zero; assumption.
    + destruct (H5 j) as [E1 E2]; [lia|]. rewrite E1. exact E2.
Qed.

Lemma loop_finite offset fuel : forall (rem : list (flt f)) c sd (dv dv' rem' : list (flt f)), first_term O rem = TTerm c sd ->
  div_loop O fuel d l m offset c sd rem dv = Ok (dv', rem') -> fin rem' -> fin rem.
Proof.
  induction fuel as [|fuel IH]; intros rem c sd dv dv' rem' Hf H F; [discriminate|]. cbn [div_loop] in H.
  destruct (N.leb_spec m sd) as [Hm|Hm]; [|apply Ok_inj in H; injection H as <- <-; exact F].
  cbn [div float_num bind] in H. destruct (vec_sub_w_scale _ _ _ _ _ _) as [rem1| |] eqn:Ev; cbn [bind] in H; try discriminate.
  destruct (usub _ _ _) as [i| |]; cbn [bind] in H; try discriminate.
  destruct (update _ _ _) as [dv1| |]; cbn [bind] in H; try discriminate.
  apply (round_finite rem rem1 c sd _ Hf Hm Ev). destruct (first_term O rem1) as [|c' sd'] eqn:E'.
  - apply Ok_inj in H. injection H as <- <-. exact F.
  - exact (IH _ _ _ _ _ _ E' H F).
Qed.

(** The scales are written to the places of the quotient given by the shifts. *)
Definition written (ss : list (flt f * nat)) (i : nat) : option (flt f) :=
  option_map fst (find (fun x => (snd x =? i)%nat) ss).

Lemma loop_steps offset fuel : undone l -> forall (rem : list (flt f)) c sd (dv dv' rem' : list (flt f)), first_term O rem = TTerm c sd ->
  (sd <= offset)%N -> length dv = S (N.to_nat (offset - m)) ->
  div_loop O fuel d l m offset c sd rem dv = Ok (dv', rem') -> fin rem' ->
  exists ss, steps d l rem ss rem' /\ (length ss <= S (N.to_nat sd) - N.to_nat m)%nat /\
    StronglySorted (fun x y => (snd y < snd x)%nat) ss /\ Forall (fun x => (snd x + N.to_nat m <= N.to_nat sd)%nat) ss /\
    forall i, vcoef dv' i = match written ss i with Some s => s | None => vcoef dv i end.
Proof.
  intros Hu. induction fuel as [|fuel IH]; intros rem c sd dv dv' rem' Hf Hso Hlen H F; [discriminate|]. cbn [div_loop] in H.
  destruct (N.leb_spec m sd) as [Hm|Hm].
  2:{ apply Ok_inj in H. injection H as <- <-. exists []. split; [constructor|]. split; [simpl; lia|]. split; [constructor|]. split; [constructor|]. reflexivity. }
  cbn [div float_num bind] in H. destruct (vec_sub_w_scale _ _ _ _ _ _) as [rem1| |] eqn:Ev; cbn [bind] in H; try discriminate.
  destruct (usub _ _ _) as [i| |] eqn:Ei; cbn [bind] in H; try discriminate. rewrite usub_le in Ei by lia. apply Ok_inj in Ei. subst i.
  destruct (update _ _ _) as [dv1| |] eqn:Eu; cbn [bind] in H; try discriminate.
  destruct (update_cf (fzero f) _ _ _ _ Eu) as (L1 & Li & C1).
  assert (F1 : fin rem1).
  { destruct (first_term O rem1) as [|c' sd'] eqn:E'; [apply Ok_inj in H; injection H as <- <-; exact F|]. exact (loop_finite _ _ _ _ _ _ _ _ E' H F). }
  destruct (round_step rem rem1 c sd Hu Hf Hm Ev F1) as [K1 K2].
  assert (P : (length dv - 1 - N.to_nat (offset - sd))%nat = N.to_nat (sd - m)) by lia. rewrite P in C1.
  assert (G : exists ss, steps d l rem1 ss rem' /\ (length ss <= N.to_nat sd - N.to_nat m)%nat /\
    StronglySorted (fun x y => (snd y < snd x)%nat) ss /\ Forall (fun x => (snd x + N.to_nat m < N.to_nat sd)%nat) ss /\
    forall i, vcoef dv' i = match written ss i with Some s => s | None => vcoef dv1 i end).
  { destruct (first_term O rem1) as [|c' sd'] eqn:E'.
    - apply Ok_inj in H. injection H as <- <-. exists []. split; [constructor|]. split; [simpl; lia|]. split; [constructor|]. split; [constructor|]. reflexivity.
    - specialize (K2 c' sd' eq_refl). destruct (IH rem1 c' sd' dv1 dv' rem' E') as (ss & G1 & G2 & G3 & G4 & G5); auto; try lia.
      exists ss. split; [exact G1|]. split; [lia|]. split; [exact G3|]. split; [|exact G5].
      eapply Forall_impl; [|exact G4]. cbn beta. intros x. lia. }
  destruct G as (ss & G1 & G2 & G3 & G4 & G5). exists ((fdiv c l, N.to_nat (sd - m)) :: ss).
  split; [apply K1, G1|]. split; [cbn [length]; lia|]. split; [|split].
  - constructor; [exact G3|]. eapply Forall_impl; [|exact G4]. cbn [snd]. intros x. lia.
  - constructor; [cbn [snd]; lia|]. eapply Forall_impl; [|exact G4]. cbn beta. intros x. lia.
  - intros i. rewrite G5. unfold written. cbn [find snd]. specialize (C1 i). change (cf (fzero f) dv1 i) with (vcoef dv1 i) in C1.
    change (cf (fzero f) dv i) with (vcoef dv i) in C1. rewrite C1.
    destruct (Nat.eqb_spec (N.to_nat (sd - m)) i) as [<-|Hi].
    + assert (find (fun x : flt f * nat => (snd x =? N.to_nat (sd - m))%nat) ss = None) as ->.
      { destruct (find _ ss) as [x|] eqn:Ex; [|reflexivity].
        apply find_some in Ex. destruct Ex as [I1 I2]. rewrite Forall_forall in G4. specialize (G4 x I1). lia. }
      cbn [option_map fst]. rewrite Nat.eqb_refl. reflexivity.
    + destruct (Nat.eqb_spec i (N.to_nat (sd - m))); [lia|]. reflexivity.
Qed.

(** The remainder loop of [%=] is the division loop without the quotient. *)
Lemma rem_loop_div offset fuel : forall (rem : list (flt f)) c sd (dv rem' : list (flt f)), first_term O rem = TTerm c sd ->
  undone l -> (sd <= offset)%N -> length dv = S (N.to_nat (offset - m)) -> fin rem' ->
  rem_assign_loop O fuel d l m (fdiv c l) sd rem = Ok rem' ->
  fin rem /\ exists dv', div_loop O fuel d l m offset c sd rem dv = Ok (dv', rem').
Proof.
  induction fuel as [|fuel IH]; intros rem c sd dv rem' Hf Hu Hso Hlen F H; [discriminate|]. cbn [rem_assign_loop] in H. cbn [div_loop].
  destruct (N.leb_spec m sd) as [Hm|Hm]; [|apply Ok_inj in H; subst rem'; eauto].
  cbn [div float_num bind]. destruct (vec_sub_w_scale _ _ _ _ _ _) as [rem1| |] eqn:Ev; cbn [bind] in *; try discriminate.
  rewrite usub_le by lia. cbn [bind].
  destruct (@update_returns (flt f) dv (offset - sd) (fdiv c l)) as (dv1 & Eu); [unfold len; lia|]. rewrite Eu. cbn [bind].
  destruct (update_cf (fzero f) _ _ _ _ Eu) as (L1 & Li & C1).
  destruct (first_term O rem1) as [|c' sd'] eqn:E'.
  - apply Ok_inj in H. subst rem'. split; [|eauto]. apply (round_finite rem rem1 c sd _ Hf Hm Ev F).
  - cbn [div float_num bind] in H.
    assert (Hs : (sd' <= sd)%N).
    { enough (N.to_nat sd' < S (N.to_nat sd))%nat by lia. apply (first_term_below O (fzero f) rem1 c' sd' (S (N.to_nat sd)) E'); [reflexivity|].
      destruct (round_cf rem rem1 c sd _ Hf Hm Ev) as (_ & _ & _ & _ & H5 & _). intros j Hj. destruct (H5 j) as [E1 E2]; [lia|].
      change (cf (fzero f) rem1 j) with (vcoef rem1 j). rewrite E1. exact E2. }
    destruct (IH rem1 c' sd' dv1 rem' E' Hu) as [F1 K]; auto; try lia. split; [|exact K].
    apply (round_finite rem rem1 c sd _ Hf Hm Ev F1).
Qed.
End Loops.

(** From the scales and shifts to the coefficients of the quotient. *)
Section Quotient.
Context {f : fty}.
Lemma written_poly (ss : list (flt f * nat)) : StronglySorted (fun x y => (snd y < snd x)%nat) ss -> forall i,
  qpoly ss i = match written f ss i with Some s => B2R s | None => 0 end /\
  qabs ss i = match written f ss i with Some s => Rabs (B2R s) | None => 0 end.
Proof.
  induction 1 as [|[s k] ss Hss IH Hk]; intros i; [split; reflexivity|]. cbn [qpoly qabs]. unfold padd, pmono.
  destruct (IH i) as [-> ->]. unfold written. cbn [find snd]. rewrite (Nat.eqb_sym i k). destruct (Nat.eqb_spec k i) as [->|N].
  - assert (find (fun x : flt f * nat => (snd x =? i)%nat) ss = None) as ->.
    { destruct (find _ ss) as [x|] eqn:Ex; [|reflexivity]. apply find_some in Ex. destruct Ex as [I1 I2]. rewrite Forall_forall in Hk.
      specialize (Hk x I1). cbn in Hk. lia. }
    cbn. split; apply Rplus_0_r.
  - cbn. split; apply Rplus_0_l.
Qed.
End Quotient.

(** ** Whole numbers *)

Section Whole.
Context {f : fty}.
Notation prec := (fprec f).
Notation emax := (femax f).
Notation fexp := (SpecFloat.fexp prec emax).
Notation rnd := (Generic_fmt.round radix2 fexp (round_mode mode_NE)).

Lemma integral_add x y : integral x -> integral y -> integral (x + y).
Proof. intros [a ->] [b ->]. exists (a + b)%Z. symmetry. apply plus_IZR. Qed.
Lemma integral_sub x y : integral x -> integral y -> integral (x - y).
Proof. intros [a ->] [b ->]. exists (a - b)%Z. symmetry. apply minus_IZR. Qed.
Lemma integral_mul x y : integral x -> integral y -> integral (x * y).
Proof. intros [a ->] [b ->]. exists (a * b)%Z. symmetry. apply mult_IZR. Qed.

Lemma whole_format z : Rabs (IZR z) < bpow radix2 prec -> generic_format radix2 fexp (IZR z).
Proof.
  intros H. destruct (Z.eq_dec z 0) as [->|N]; [apply generic_format_0|].
  replace (IZR z) with (F2R (Float radix2 z 0)) by (unfold F2R; simpl; ring).
  apply generic_format_F2R. intros _. unfold F2R. simpl Fnum. simpl Fexp. change (bpow radix2 0) with 1. rewrite Rmult_1_r.
  unfold cexp. pose proof (fsizes f) as (P1 & P2 & P3 & P4 & _).
  pose proof (mag_le_bpow radix2 (IZR z) prec (not_0_IZR _ N) H) as M. unfold SpecFloat.fexp. lia.
Qed.

Lemma rnd_integral x : integral x -> integral (rnd x).
Proof.
  intros [z ->]. destruct (Z_le_gt_dec (cexp radix2 fexp (IZR z)) 0) as [H|H].
  - exists z. apply round_generic; [apply valid_rnd_N|].
    replace (IZR z) with (F2R (Float radix2 z 0)) at 1 by (unfold F2R; simpl; ring). apply generic_format_F2R. intros _.
    replace (F2R (Float radix2 z 0)) with (IZR z) by (unfold F2R; simpl; ring). exact H.
  - unfold Generic_fmt.round. set (e := cexp radix2 fexp (IZR z)) in *. exists (round_mode mode_NE (scaled_mantissa radix2 fexp (IZR z)) * 2 ^ e)%Z.
    unfold F2R. cbn [Fnum Fexp]. rewrite mult_IZR. f_equal. rewrite <- (IZR_Zpower radix2) by lia. reflexivity.
Qed.

Lemma rnd_small x : integral x -> Rabs (rnd x) < bpow radix2 prec -> rnd x = x.
Proof.
  intros [z ->] H. apply round_generic; [apply valid_rnd_N|]. apply whole_format.
  destruct (Rlt_or_le (Rabs (IZR z)) (bpow radix2 prec)) as [G|G]; [exact G|]. exfalso.
  pose proof (fsizes f) as (P1 & P2 & P3 & P4 & _).
  pose proof (@abs_round_ge_generic radix2 fexp (fexp_valid' f) (round_mode mode_NE) (valid_rnd_N _) (bpow radix2 prec) (IZR z) (bpow_format f prec ltac:(lia)) G). lra.
Qed.

Lemma fdiv_unit (c l : flt f) : (B2R l = 1 \/ B2R l = -1) -> is_finite (fdiv c l) = true ->
  B2R (fdiv c l) = B2R c * B2R l.
Proof.
  intros Hl H. rewrite fdiv_round by (try exact H; destruct Hl; lra).
  assert (E : B2R c / B2R l = B2R c * B2R l) by (destruct Hl as [-> | ->]; field). rewrite E.
  apply round_generic; [apply valid_rnd_N|].
  destruct Hl as [-> | ->].
  - rewrite Rmult_1_r. apply generic_format_B2R.
  - replace (B2R c * -1) with (- B2R c) by ring. apply generic_format_opp, generic_format_B2R.
Qed.

Lemma steps_whole (d : list (flt f)) l rem ss rem' : (B2R l = 1 \/ B2R l = -1) -> integral_list d -> steps d l rem ss rem' ->
  integral_list rem -> integral_list rem' /\ (forall i, integral (qpoly ss i)) /\
  ((forall j, @pmul R_ring (qabs ss) (ra d) j + ra rem' j < bpow radix2 prec) ->
    forall j, rc rem j = @pmul R_ring (qpoly ss) (rc d) j + rc rem' j).
Proof.
  intros Hl Id. induction 1 as [rem|rem rem1 rem' s k ss (j0 & Es) Fs F0 F1 Hlo Hhi Hss IH]; intros I0.
  - split; [exact I0|]. split; [intros i; exists 0%Z; reflexivity|]. intros _ j. cbn [qpoly].
    rewrite (@pmul_zero_l R_ring pzero _ (fun _ => eq_refl) j). cbn. symmetry. apply Rplus_0_l.
  - assert (Is : integral (B2R s)).
    { rewrite Es in *. rewrite fdiv_unit by assumption. apply integral_mul; [apply I0|]. destruct Hl as [-> | ->]; eexists; reflexivity. }
    assert (I1 : integral_list rem1).
    { intros j. destruct (Nat.lt_ge_cases j k) as [G|G]; [unfold rc; rewrite Hlo by exact G; apply I0|].
      destruct (Hhi j G) as [E|(_ & _ & E)]; [|rewrite E; exists 0%Z; reflexivity].
      specialize (F1 j). unfold rc. rewrite E in *. rewrite fsub_round by exact F1. apply fsub_operands in F1. destruct F1 as [_ F1].
      rewrite fmul_round by exact F1. apply rnd_integral, integral_sub; [apply I0|]. apply rnd_integral, integral_mul; [apply Id|exact Is]. }
    destruct (IH I1) as (K1 & K2 & K3). split; [exact K1|]. split.
    + intros i. cbn [qpoly]. apply integral_add; [|apply K2]. unfold pmono. destruct (i =? k)%nat; [exact Is|exists 0%Z; reflexivity].
    + intros Hb j.
      assert (Hb' : forall i, @pmul R_ring (qabs ss) (ra d) i + ra rem' i < bpow radix2 prec).
      { intros i. specialize (Hb i). rewrite qa_cons in Hb. destruct (i <? k)%nat; [lra|].
        pose proof (Rmult_le_pos (Rabs (B2R s)) (ra d (i - k)) (Rabs_pos _) (Rabs_pos _)). lra. }
      rewrite q_cons. specialize (K3 Hb' j). specialize (Hb j). rewrite qa_cons in Hb. specialize (Hb' j).
      destruct (Nat.ltb_spec j k) as [G|G].
      * rewrite Rplus_0_l, <- K3. unfold rc. rewrite Hlo by exact G. reflexivity.
      * rewrite Rplus_assoc, <- K3. pose proof (qa_pos ss d j) as HB. pose proof (Rabs_pos (rc rem' j)) as HR. change (Rabs (rc rem' j)) with (ra rem' j) in HR.
        destruct (Hhi j G) as [E|(E1 & E2 & E3)]; [|rewrite E1, E2, E3, Rmult_0_r, Rplus_0_l; reflexivity].
        assert (Hw : Rabs (rc rem1 j) < bpow radix2 prec).
        { rewrite K3. eapply Rle_lt_trans; [apply Rabs_triang|]. pose proof (q_bound ss d j). unfold ra in *. unfold rc in *. lra. }
        specialize (F1 j). unfold rc at 1 3. unfold rc in Hw. rewrite E in *. rewrite fsub_round in * by exact F1.
        destruct (fsub_operands _ _ F1) as [_ Fm]. rewrite fmul_round in * by exact Fm.
        assert (Im : rnd (B2R (vcoef d (j - k)) * B2R s) = B2R (vcoef d (j - k)) * B2R s).
        { destruct (integral_mul _ _ (Id (j - k)%nat) Is) as [z Ez]. unfold rc in Ez. apply round_generic; [apply valid_rnd_N|]. rewrite Ez.
          apply whole_format. rewrite <- Ez, Rabs_mult, Rmult_comm. unfold ra in *. lra. }
        rewrite Im in *. rewrite rnd_small; [unfold rc; ring| |exact Hw]. apply integral_sub; [apply I0|]. apply integral_mul; [apply Id|exact Is].
Qed.
End Whole.

(** ** Assembly *)

Section Assembly.
Context (f : fty) (powi : flt f -> N -> flt f) (chk : bool).
Notation O := (float_num chk f powi).
Notation u := (uro f).

Lemma strip_rc (l : list (flt f)) j : rc (strip O l) j = rc l j.
Proof.
  pose proof (strip_cf (fzero f) O l j) as K. unfold rc. change (vcoef (strip O l) j) with (cf (fzero f) (strip O l) j).
  change (vcoef l j) with (cf (fzero f) l j). destruct (Nat.ltb_spec j (length (strip O l))) as [G|G]; [rewrite K; reflexivity|].
  rewrite (cf_overflow (fzero f) (strip O l) j G). destruct (Nat.lt_ge_cases j (length l)) as [G'|G'].
  - symmetry. apply (zero_rc f powi chk). apply K, G'.
  - rewrite cf_overflow by exact G'. reflexivity.
Qed.

Lemma fin_list (l : list (flt f)) : finite_list l <-> forall j, is_finite (vcoef l j) = true.
Proof. unfold finite_list. apply (cf_Forall (fzero f) (fun x : flt f => is_finite x = true) l eq_refl). Qed.

Lemma steps_finite (d : list (flt f)) l rem ss rem' : steps d l rem ss rem' -> Forall (fun x => is_finite (fst x) = true) ss.
Proof. induction 1; constructor; assumption. Qed.

Lemma loop_degree (d : list (flt f)) l m offset fuel : forall rem c sd dv dv' rem', first_term O rem = TTerm c sd ->
  div_loop O fuel d l m offset c sd rem dv = Ok (dv', rem') ->
  match first_term O rem' with ZeroTerm => True | TTerm _ k => (k < m)%N end.
Proof.
  induction fuel as [|fuel IH]; intros rem c sd dv dv' rem' Hf H; [discriminate|]. cbn [div_loop] in H.
  destruct (N.leb_spec m sd) as [Hm|Hm]; [|apply Ok_inj in H; injection H as <- <-; rewrite Hf; exact Hm].
  cbn [div float_num bind] in H. destruct (vec_sub_w_scale _ _ _ _ _ _) as [rem1| |]; cbn [bind] in H; try discriminate.
  destruct (usub _ _ _) as [i| |]; cbn [bind] in H; try discriminate.
  destruct (update _ _ _) as [dv1| |]; cbn [bind] in H; try discriminate.
  destruct (first_term O rem1) as [|c' sd'] eqn:E'.
  - apply Ok_inj in H. injection H as <- <-. rewrite E'. exact I.
  - exact (IH _ _ _ _ _ _ E' H).
Qed.

Lemma loop_length (d : list (flt f)) l m offset fuel : forall rem c sd dv dv' rem',
  div_loop O fuel d l m offset c sd rem dv = Ok (dv', rem') -> length dv' = length dv.
Proof.
  induction fuel as [|fuel IH]; intros rem c sd dv dv' rem' H; [discriminate|]. cbn [div_loop] in H.
  destruct (m <=? sd)%N; [|apply Ok_inj in H; injection H as <- <-; reflexivity].
  cbn [div float_num bind] in H. destruct (vec_sub_w_scale _ _ _ _ _ _) as [rem1| |]; cbn [bind] in H; try discriminate.
  destruct (usub _ _ _) as [i| |]; cbn [bind] in H; try discriminate.
  destruct (update _ _ _) as [dv1| |] eqn:Eu; cbn [bind] in H; try discriminate.
  destruct (update_cf (fzero f) _ _ _ _ Eu) as (L1 & _).
  destruct (first_term O rem1) as [|c' sd']; [apply Ok_inj in H; injection H as <- <-; exact L1|].
  rewrite (IH _ _ _ _ _ _ H). exact L1.
Qed.

(** What the two loops establish. *)
Lemma loop_core (d : list (flt f)) l m fuel p c n (dv' rem' : list (flt f)) : first_term O d = TTerm l m -> undone l ->
  first_term O p = TTerm c n -> (m <= n)%N ->
  div_loop O fuel d l m n c n p (repeat (fzero f) (N.to_nat (n - m + 1))) = Ok (dv', rem') -> finite_list rem' ->
  finite_list dv' /\ finite_list p /\
  exists ss, steps d l p ss rem' /\ (length ss <= S (N.to_nat n) - N.to_nat m)%nat /\
    (forall i, rc dv' i = qpoly ss i) /\ (forall i, ra dv' i = qabs ss i).
Proof.
  intros Hd Hu Hp Hm H F. pose proof (proj1 (fin_list rem') F) as F'. clear F. rename F' into F.
  assert (Hlen : length (repeat (fzero f) (N.to_nat (n - m + 1))) = S (N.to_nat (n - m))) by (rewrite repeat_length; lia).
  destruct (loop_steps f powi chk d l m Hd n fuel Hu p c n _ _ _ Hp (N.le_refl n) Hlen H F) as (ss & G1 & G2 & G3 & _ & G5).
  assert (Z : forall i, vcoef dv' i = match written f ss i with Some s => s | None => fzero f end).
  { intros i. rewrite G5. destruct (written f ss i); [reflexivity|]. apply (cf_repeat (fzero f)). }
  split; [|split].
  - apply fin_list. intros i. rewrite Z. unfold written. destruct (find _ ss) as [x|] eqn:Ex; cbn [option_map]; [|reflexivity].
    apply find_some in Ex. pose proof (steps_finite _ _ _ _ _ G1) as Fs. rewrite Forall_forall in Fs. apply Fs, Ex.
  - apply fin_list. exact (loop_finite f powi chk d l m Hd n fuel p c n _ _ _ Hp H F).
  - exists ss. split; [exact G1|]. split; [exact G2|]. split; intros i; unfold rc, ra; rewrite Z; destruct (written_poly ss G3 i) as [W1 W2];
      [rewrite W1|rewrite W2]; destruct (written f ss i); try reflexivity. cbn. apply Rabs_R0.
Qed.

(** The bound grows with the number of rounds. *)
Lemma bound_mono (k K : nat) B : (k <= K)%nat -> 0 <= B ->
  ((1 + u) ^ k - 1) * B + INR k * (1 + u) ^ k * eta f <= ((1 + u) ^ K - 1) * B + INR K * (1 + u) ^ K * eta f.
Proof.
  intros H HB. pose proof (@uro_pos f) as U. pose proof (@eta_pos f) as P.
  assert (G : (1 + u) ^ k <= (1 + u) ^ K) by (apply Rle_pow; [lra|exact H]).
  assert (G1 : 1 <= (1 + u) ^ k) by (apply pow_R1_Rle; lra).
  apply Rplus_le_compat; [apply Rmult_le_compat_r; lra|]. apply Rmult_le_compat_r; [lra|].
  apply Rmult_le_compat; [apply pos_INR|lra|apply le_INR, H|exact G].
Qed.
Lemma abs_prod_pos (a b : list (flt f)) j : 0 <= abs_prod a b j.
Proof.
  unfold abs_prod, pmul. generalize (S j) as n. intros n. induction n as [|n IH]; [cbn; lra|].
  cbn [sumn]. apply Rplus_le_le_0_compat; [exact IH|]. apply Rmult_le_pos; apply Rabs_pos.
Qed.
Lemma bound_pos (K : nat) B : 0 <= B -> 0 <= ((1 + u) ^ K - 1) * B + INR K * (1 + u) ^ K * eta f.
Proof.
  intros HB. eapply Rle_trans; [|apply (bound_mono 0 K B); [lia|exact HB]]. cbn [pow INR]. lra.
Qed.

(** The dividend has as many coefficients as its degree requires. *)
Lemma degree_length (p : list (flt f)) c n : first_term O p = TTerm c n -> (S (N.to_nat n) <= length p)%nat.
Proof.
  intros Hp. destruct (first_term_TTerm O p c n Hp) as (q0 & Sp & Lp & _). destruct (strip_split O p) as (pre & Ep & _).
  rewrite Sp in Ep. apply (f_equal (@length _)) in Ep. rewrite app_length in Ep. cbn [length] in Ep. unfold len in Lp. lia.
Qed.

Lemma recombines_core (d : list (flt f)) l p rem' (dv' : list (flt f)) ss K : steps d l p ss rem' -> (length ss <= K)%nat ->
  (forall i, rc dv' i = qpoly ss i) -> (forall i, ra dv' i = qabs ss i) -> recombines p d dv' rem' K.
Proof.
  intros G1 G2 G3 G4 j. pose proof (steps_err d l p ss rem' G1 j) as E.
  assert (E1 : exact_prod dv' d j = @pmul R_ring (qpoly ss) (rc d) j) by (apply (@pmul_ext R_ring); [exact G3|intros i; reflexivity]).
  assert (E2 : abs_prod dv' d j = @pmul R_ring (qabs ss) (ra d) j) by (apply (@pmul_ext R_ring); [exact G4|intros i; reflexivity]).
  pose proof (abs_prod_pos dv' d j) as Hp. rewrite E1, E2 in *. eapply Rle_trans; [exact E|]. apply bound_mono; [exact G2|].
  pose proof (Rabs_pos (rc rem' j)). unfold ra, rc in *. lra.
Qed.

Lemma recombines_ext (p d q r q' r' : list (flt f)) K : (forall i, rc q' i = rc q i) -> (forall i, rc r' i = rc r i) ->
  recombines p d q r K -> recombines p d q' r' K.
Proof.
  intros H1 H2 H j. specialize (H j). unfold ra in *. fold (rc r' j). fold (rc r j) in H. rewrite H2.
  assert (exact_prod q' d j = exact_prod q d j) as -> by (apply (@pmul_ext R_ring); [exact H1|intros i; reflexivity]).
  assert (abs_prod q' d j = abs_prod q d j) as ->; [|exact H].
  apply (@pmul_ext R_ring); [|intros i; reflexivity]. intros i. unfold ra. fold (rc q' i). fold (rc q i). rewrite H1. reflexivity.
Qed.

Lemma recombines_nil (p d : list (flt f)) K : recombines p d [] p K.
Proof.
  intros j. assert (Z : exact_prod [] d j = 0).
  { apply (@pmul_zero_l R_ring). intros i. unfold rc, vcoef. cbn. destruct i; reflexivity. }
  rewrite Z. replace (rc p j - 0 - rc p j) with 0 by ring. rewrite Rabs_R0. apply bound_pos.
  pose proof (abs_prod_pos [] d j). pose proof (Rabs_pos (B2R (vcoef p j))). unfold ra. lra.
Qed.

Lemma div_mod_loop fuel (p d q r : list (flt f)) l m c n : vec_ok O p -> first_term O d = TTerm l m -> first_term O p = TTerm c n -> (m <= n)%N ->
  dense_div_mod O fuel p d = Ok (q, r) ->
  exists dv' rem', div_loop O fuel d l m n c n p (repeat (fzero f) (N.to_nat (n - m + 1))) = Ok (dv', rem') /\ q = strip O dv' /\ r = strip O rem'.
Proof.
  intros Hv Hd Hp Hm H. unfold dense_div_mod in H. rewrite Hd, Hp in H. destruct (N.ltb_spec n m); [lia|].
  pose proof (degree_length p c n Hp) as Hl. unfold vec_ok, len in Hv.
  assert (Hcap : (n_max_len O <= 2 ^ 63)%N) by (destruct f; vm_compute; discriminate).
  rewrite usub_le in H by lia. cbn [bind] in H. rewrite uadd_small in H by (unfold USIZE_MAX; lia). cbn [bind] in H.
  unfold vec_repeat in H. destruct (N.leb_spec (n - m + 1) (n_max_len O)); [|lia]. cbn [bind] in H.
  change (zero O) with (fzero f) in H.
  destruct (div_loop _ _ _ _ _ _ _ _ _ _) as [[dv' rem']| |]; cbn [bind] in H; try discriminate.
  rewrite !dense_new_ok in H. cbn [bind] in H. apply Ok_inj in H. injection H as <- <-. eauto.
Qed.

Lemma first_term_of_strip (l : list (flt f)) : first_term O (strip O l) = first_term O l.
Proof.
  rewrite !first_term_strip. assert (strip O (strip O l) = strip O l) as ->; [|reflexivity].
  destruct (strip_split O l) as (_ & _ & _ & _ & Hs). destruct (strip O l) as [|y ys]; [reflexivity|].
  unfold strip. cbn [fnz]. rewrite Hs. reflexivity.
Qed.
Lemma strip_finite (l : list (flt f)) : finite_list (strip O l) -> finite_list l.
Proof.
  destruct (strip_split O l) as (pre & E & _ & A & _). intros H. unfold finite_list. rewrite E. apply Forall_app. split; [|exact H].
  eapply Forall_impl; [|exact A]. cbn beta. intros x Hx. apply feqb_zero in Hx. destruct Hx as (s & ->). reflexivity.
Qed.
End Assembly.

(** ** Theorems *)

(** Division by a divisor whose leading coefficient can be divided out without loss: when the
    remainder is finite, so is everything else, its degree is below that of the divisor, and
    quotient times divisor plus remainder is the dividend up to rounding. *)
Theorem C88_recombine : forall f chk powi fuel (p d q r : list (flt f)) l m,
  let O := float_num chk f powi in
  vec_ok O p -> first_term O d = TTerm l m -> undone l ->
  dense_div_mod O fuel p d = Ok (q, r) -> finite_list r ->
  finite_list p /\ finite_list q /\
  match first_term O r with ZeroTerm => True | TTerm _ k => (k < m)%N end /\
  recombines p d q r (length p - N.to_nat m).
Proof.
  intros f chk powi fuel p d q r l m O Hv Hd Hu H Fr.
  destruct (first_term O p) as [|c n] eqn:Hp.
  - unfold dense_div_mod in H. rewrite Hd, Hp in H. apply Ok_inj in H. injection H as <- <-. rewrite Hp.
    split; [exact Fr|]. split; [constructor|]. split; [exact I|]. apply recombines_nil.
  - destruct (N.lt_ge_cases n m) as [Hm|Hm].
    + unfold dense_div_mod in H. rewrite Hd, Hp in H. destruct (N.ltb_spec n m); [|lia]. apply Ok_inj in H. injection H as <- <-. rewrite Hp.
      split; [exact Fr|]. split; [constructor|]. split; [exact Hm|]. apply recombines_nil.
    + destruct (div_mod_loop f powi chk fuel p d q r l m c n Hv Hd Hp Hm H) as (dv' & rem' & E & -> & ->).
      destruct (loop_core f powi chk d l m fuel p c n dv' rem' Hd Hu Hp Hm E (strip_finite f powi chk _ Fr)) as (K1 & K2 & ss & G1 & G2 & G3 & G4).
      split; [exact K2|]. split; [apply Forall_skipn, K1|]. split.
      * unfold O. rewrite first_term_of_strip. exact (loop_degree f powi chk d l m n fuel p c n _ _ _ Hp E).
      * apply (recombines_ext f p d dv' rem'); [apply strip_rc|apply strip_rc|].
        apply (recombines_core f d l p rem' dv' ss); auto. pose proof (degree_length f powi chk p c n Hp). lia.
Qed.

(** [%=]: there is a quotient with which the remainder recombines in the same way. *)
Theorem C88_rem_assign : forall f chk powi fuel (p d r : list (flt f)) l m,
  let O := float_num chk f powi in
  first_term O d = TTerm l m -> undone l ->
  dense_rem_assign O fuel p d = Ok r -> finite_list r ->
  finite_list p /\ match first_term O r with ZeroTerm => True | TTerm _ k => (k < m)%N end /\
  exists q, finite_list q /\ (length q <= length p - N.to_nat m)%nat /\ recombines p d q r (length p - N.to_nat m).
Proof.
  intros f chk powi fuel p d r l m O Hd Hu H Fr. unfold dense_rem_assign in H. rewrite Hd in H.
  destruct (first_term O p) as [|c n] eqn:Hp.
  - apply Ok_inj in H. subst r. rewrite Hp. split; [exact Fr|]. split; [exact I|]. exists [].
    split; [constructor|]. split; [simpl; lia|]. apply recombines_nil.
  - destruct (N.ltb_spec n m) as [Hm|Hm].
    + apply Ok_inj in H. subst r. rewrite Hp. split; [exact Fr|]. split; [exact Hm|]. exists [].
      split; [constructor|]. split; [simpl; lia|]. apply recombines_nil.
    + cbn [div float_num bind O] in H. pose proof (degree_length f powi chk p c n Hp) as Hl.
      destruct (rem_loop_div f powi chk d l m Hd n fuel p c n (repeat (fzero f) (N.to_nat (n - m + 1))) r Hp Hu (N.le_refl n)
        ltac:(rewrite repeat_length; lia) (proj1 (fin_list f r) Fr) H) as (_ & dv' & E).
      destruct (loop_core f powi chk d l m fuel p c n dv' r Hd Hu Hp Hm E Fr) as (K1 & K2 & ss & G1 & G2 & G3 & G4).
      split; [exact K2|]. split; [exact (loop_degree f powi chk d l m n fuel p c n _ _ _ Hp E)|].
      exists (strip O dv'). split; [apply Forall_skipn, K1|]. split.
      { unfold strip. rewrite skipn_length, (loop_length f powi chk _ _ _ _ _ _ _ _ _ _ _ E), repeat_length. lia. }
      apply (recombines_ext f p d dv' r); [apply strip_rc|reflexivity|].
      apply (recombines_core f d l p r dv' ss); auto. lia.
Qed.

(** Powers of two up to 1, of either sign, can be divided out without loss. *)
Theorem C88_undone : forall f (l : flt f) k, (k <= 0)%Z -> is_finite l = true ->
  (B2R l = bpow radix2 k \/ B2R l = - bpow radix2 k) -> undone l.
Proof.
  intros f l k Hk Fl Hl c Fc Fd. pose proof (bpow_gt_0 radix2 k) as Pk.
  assert (Nl : B2R l <> 0) by (destruct Hl; lra).
  assert (G : forall x : flt f, generic_format radix2 (SpecFloat.fexp (fprec f) (femax f)) (B2R x * bpow radix2 (- k))).
  { intros x. pose proof (generic_format_B2R _ _ x) as Gx.
    apply (FLT_format_generic radix2 (SpecFloat.emin (fprec f) (femax f)) (fprec f)) in Gx. destruct Gx as [[mx ex] E1 E2 E3].
    cbn [Fnum Fexp] in *. apply (generic_format_FLT radix2 (SpecFloat.emin (fprec f) (femax f)) (fprec f)).
    exists (Float radix2 mx (ex - k)); cbn [Fnum Fexp]; [|exact E2|lia].
    rewrite E1. unfold F2R. cbn [Fnum Fexp]. rewrite Rmult_assoc, <- bpow_plus. reflexivity. }
  assert (Ed : B2R (fdiv c l) = B2R c / B2R l).
  { rewrite fdiv_round by assumption. apply round_generic; [apply valid_rnd_N|].
    assert (Ei : / bpow radix2 k = bpow radix2 (- k)) by (symmetry; apply bpow_opp).
    destruct Hl as [-> | ->].
    - unfold Rdiv. rewrite Ei. apply G.
    - replace (B2R c / - bpow radix2 k) with (- (B2R c * / bpow radix2 k)) by (field; lra). rewrite Ei. apply generic_format_opp, G. }
  assert (Em : B2R l * B2R (fdiv c l) = B2R c) by (rewrite Ed; field; exact Nl).
  assert (Er : Generic_fmt.round radix2 (SpecFloat.fexp (fprec f) (femax f)) (round_mode mode_NE) (B2R l * B2R (fdiv c l)) = B2R c).
  { rewrite Em. apply round_generic; [apply valid_rnd_N|apply generic_format_B2R]. }
  assert (Fm : is_finite (fmul l (fdiv c l)) = true).
  { apply fmul_finite; [exact Fl|exact Fd|]. rewrite Er. apply abs_B2R_lt_emax. }
  split; [exact Fm|]. rewrite fmul_round by exact Fm. exact Er.
Qed.

(** Whole numbers, leading coefficient 1 or -1, magnitudes below 2^24 or 2^53: the division is
    the exact one. *)
Theorem C88_whole : forall f chk powi fuel (p d q r : list (flt f)) l m,
  let O := float_num chk f powi in
  vec_ok O p -> first_term O d = TTerm l m -> (B2R l = 1 \/ B2R l = -1) -> integral_list p -> integral_list d ->
  dense_div_mod O fuel p d = Ok (q, r) -> finite_list r ->
  integral_list q /\ integral_list r /\
  ((forall j, abs_prod q d j + ra r j < bpow radix2 (fprec f)) ->
    forall j, rc p j = exact_prod q d j + rc r j).
Proof.
  intros f chk powi fuel p d q r l m O Hv Hd Hl Ip Id H Fr.
  assert (Hnil : integral_list (@nil (flt f)) /\ integral_list p /\
    ((forall j, abs_prod [] d j + ra p j < bpow radix2 (fprec f)) -> forall j, rc p j = exact_prod [] d j + rc p j)).
  { assert (Z : forall i, rc (@nil (flt f)) i = 0) by (intros [|i]; reflexivity).
    split; [intros i; rewrite Z; exists 0%Z; reflexivity|]. split; [exact Ip|]. intros _ j.
    assert (exact_prod [] d j = 0) as -> by (apply (@pmul_zero_l R_ring); exact Z). ring. }
  destruct (first_term O p) as [|c n] eqn:Hp.
  - unfold dense_div_mod in H. rewrite Hd, Hp in H. apply Ok_inj in H. injection H as <- <-. exact Hnil.
  - destruct (N.lt_ge_cases n m) as [Hm|Hm].
    + unfold dense_div_mod in H. rewrite Hd, Hp in H. destruct (N.ltb_spec n m); [|lia]. apply Ok_inj in H. injection H as <- <-. exact Hnil.
    + assert (Hu : undone l).
      { destruct (is_finite l) eqn:Fl.
        - apply (C88_undone f l 0); [lia|exact Fl|exact Hl].
        - exfalso. destruct l; try discriminate Fl; cbn in Hl; lra. }
      destruct (div_mod_loop f powi chk fuel p d q r l m c n Hv Hd Hp Hm H) as (dv' & rem' & E & -> & ->).
      destruct (loop_core f powi chk d l m fuel p c n dv' rem' Hd Hu Hp Hm E (strip_finite f powi chk _ Fr)) as (K1 & K2 & ss & G1 & G2 & G3 & G4).
      destruct (steps_whole d l p ss rem' Hl Id G1 Ip) as (W1 & W2 & W3).
      assert (S1 : forall j, rc (strip O dv') j = rc dv' j) by apply strip_rc.
      assert (S2 : forall j, rc (strip O rem') j = rc rem' j) by apply strip_rc.
      fold O. split; [intros j; rewrite S1, G3; apply W2|]. split; [intros j; rewrite S2; apply W1|]. intros Hb j.
      rewrite S2. assert (exact_prod (strip O dv') d j = @pmul R_ring (qpoly ss) (rc d) j) as ->.
      { apply (@pmul_ext R_ring); [|intros i; reflexivity]. intros i. rewrite S1. apply G3. }
      apply W3. intros i. specialize (Hb i). unfold ra at 1 in Hb. fold (rc (strip O rem') i) in Hb. rewrite S2 in Hb.
      assert (abs_prod (strip O dv') d i = @pmul R_ring (qabs ss) (ra d) i) as <-; [|exact Hb].
      apply (@pmul_ext R_ring); [|intros k; reflexivity]. intros k. rewrite <- G4. unfold ra. fold (rc (strip O dv') k). rewrite S1. reflexivity.
Qed.


(** ... so that it finds the quotient and remainder of the polynomials over the reals. *)
Theorem C88_whole_unique : forall f chk powi fuel (p d q r : list (flt f)) l m (a b : nat -> R),
  let O := float_num chk f powi in
  vec_ok O p -> first_term O d = TTerm l m -> (B2R l = 1 \/ B2R l = -1) -> integral_list p -> integral_list d ->
  dense_div_mod O fuel p d = Ok (q, r) -> finite_list r ->
  (forall j, abs_prod q d j + ra r j < bpow radix2 (fprec f)) ->
  (exists n, forall i, (n <= i)%nat -> a i = 0) ->
  (forall j, rc p j = @pmul R_ring a (rc d) j + b j) -> (forall j, (N.to_nat m <= j)%nat -> b j = 0) ->
  (forall j, rc q j = a j) /\ (forall j, rc r j = b j).
Proof.
  intros f chk powi fuel p d q r l m a b O Hv Hd Hl Ip Id H Fr Hb Ha E1 E2.
  destruct (C88_whole f chk powi fuel p d q r l m Hv Hd Hl Ip Id H Fr) as (_ & _ & K). specialize (K Hb).
  assert (Hu : undone l).
  { destruct (is_finite l) eqn:Fl; [apply (C88_undone f l 0); [lia|exact Fl|exact Hl]|].
    exfalso. destruct l; try discriminate Fl; cbn in Hl; lra. }
  destruct (C88_recombine f chk powi fuel p d q r l m Hv Hd Hu H Fr) as (_ & _ & Hdeg & _). fold O in Hdeg.
  assert (Dd : @is_degree R_ring (rc d) (Some (N.to_nat m))).
  { pose proof (first_term_TTerm _ _ _ _ Hd) as (qd & Sd & Ld & _). destruct (strip_split O d) as (pre & E & _). unfold len in Ld. split.
    - assert (vcoef d (N.to_nat m) = l) as E'.
      { change (cf (fzero f) d (N.to_nat m) = l). rewrite E, Sd, cf_app. cbn [length].
        destruct (Nat.ltb_spec (N.to_nat m) (S (length qd))); [|lia]. rewrite cf_cons.
        destruct (Nat.eqb_spec (N.to_nat m) (length qd)); [reflexivity|lia]. }
      unfold rc. rewrite E'. intros Z. change (B2R l = 0) in Z. destruct Hl; lra.
    - intros j Hj. unfold rc. destruct (Nat.lt_ge_cases j (length d)) as [G|G].
      + apply (zero_rc f powi chk). apply (first_term_above O (fzero f) d l m Hd j Hj G).
      + change (B2R (cf (fzero f) d j) = 0). rewrite cf_overflow by exact G. reflexivity. }
  assert (Hr : forall j, (N.to_nat m <= j)%nat -> rc r j = 0).
  { intros j Hj. unfold rc. destruct (first_term O r) as [|c' k] eqn:Er.
    - rewrite first_term_strip in Er. destruct (strip_split O r) as (pre & E & _ & A & _). destruct (strip O r); [|discriminate].
      rewrite app_nil_r in E. subst pre. apply (zero_rc f powi chk).
      assert (Az : forall i, is_zero O (cf (fzero f) r i) = true) by (apply (cf_Forall (fzero f) (fun x => is_zero O x = true) r eq_refl), A). apply Az.
    - destruct (Nat.lt_ge_cases j (length r)) as [G|G].
      + apply (zero_rc f powi chk). apply (first_term_above O (fzero f) r c' k Er j); [lia|exact G].
      + change (B2R (cf (fzero f) r j) = 0). rewrite cf_overflow by exact G. reflexivity. }
  apply (euclid_unique R_ring R_domain (rc p) (rc d) (rc q) (rc r) a b).
  - exists (length q). intros i Hi. unfold rc. change (B2R (cf (fzero f) q i) = 0). rewrite cf_overflow by lia. reflexivity.
  - destruct Ha as (n & Hn). exists n. intros i Hi. apply Hn. lia.
  - split; [exact K|]. exists (N.to_nat m). split; [exact Dd|exact Hr].
  - split; [exact E1|]. exists (N.to_nat m). split; [exact Dd|exact E2].
Qed.

(** With the bounds of C55 everything is met: a monic divisor and no overflow. *)
Theorem C88_monic : forall f chk powi (p d : list (flt f)) a b m c n fuel,
  let O := float_num chk f powi in
  (0 <= a)%Z -> (0 <= b)%Z -> vec_ok O p ->
  Forall (fun x : flt f => is_finite x = true /\ Rabs (B2R x) <= bpow radix2 b) p ->
  Forall (fun x : flt f => is_finite x = true /\ Rabs (B2R x) <= bpow radix2 a) d ->
  (exists l, first_term O d = TTerm l m /\ B2R l = 1) ->
  first_term O p = TTerm c n ->
  (b + (Z.of_N n - Z.of_N m + 1) * (a + 1) < femax f)%Z ->
  (N.to_nat n + 2 <= fuel)%nat ->
  exists q r, dense_div_mod O fuel p d = Ok (q, r) /\ finite_list q /\ finite_list r /\
    match first_term O r with ZeroTerm => True | TTerm _ k => (k < m)%N end /\
    recombines p d q r (length p - N.to_nat m).
Proof.
  intros f chk powi p d a b m c n fuel O Ha Hb Hv Bp Bd (l & Hd & Hl) Hp Hm Hfu.
  destruct (C55_monic_partial f chk powi p d a b m c n fuel Ha Hb Hv Bp Bd (ex_intro _ l (Logic.conj Hd Hl)) Hp Hm Hfu) as (q & r & H & Fq & Fr & Hr).
  exists q, r. assert (Hu : undone l).
  { destruct (is_finite l) eqn:Fl; [apply (C88_undone f l 0); [lia|exact Fl|left; exact Hl]|].
    exfalso. destruct l; try discriminate Fl; cbn in Hl; lra. }
  destruct (C88_recombine f chk powi fuel p d q r l m Hv Hd Hu H Fr) as (_ & _ & _ & K).
  split; [exact H|]. split; [exact Fq|]. split; [exact Fr|]. split; [exact Hr|exact K].
Qed.

(** (0.3x^3 + 0.1x^2 + 0.4x + 0.1) / (-0.5x + 0.7): the leading coefficient can be divided out,
    the division takes three rounds and all results are finite. *)
Definition tenth (z : Z) : flt F64 := fdiv (f_of_Z F64 z) (f_of_Z F64 10).
Definition minus_half : flt F64 := fdiv (f_of_Z F64 (-1)) (f_of_Z F64 2).
Example C88_case : undone minus_half /\ forall powi, let O := float_num true F64 powi in
  vec_ok O (map tenth [3; 1; 4; 1]%Z) /\ first_term O [minus_half; tenth 7] = TTerm minus_half 1 /\
  match dense_div_mod O 5 (map tenth [3; 1; 4; 1]%Z) [minus_half; tenth 7] with
  | Ok (q, r) => forallb is_finite r = true /\ length q = 3%nat /\ length r = 1%nat | _ => False end.
Proof.
  split.
  - apply (C88_undone F64 minus_half (-1)); [lia|vm_compute; reflexivity|right].
    unfold minus_half. assert (F : is_finite (fdiv (f_of_Z F64 (-1)) (f_of_Z F64 2)) = true) by (vm_compute; reflexivity).
    destruct (f_of_Z_small F64 (-1)) as [B1 _]; [vm_compute; discriminate|]. destruct (f_of_Z_small F64 2) as [B2 _]; [vm_compute; discriminate|].
    rewrite fdiv_round by (try exact F; rewrite B2; lra). rewrite B1, B2. replace (-1 / 2) with (- bpow radix2 (-1)) by (change (bpow radix2 (-1)) with (/ 2); lra).
    apply round_generic; [apply valid_rnd_N|]. apply generic_format_opp. apply generic_format_bpow. vm_compute. discriminate.
  - intros powi O. split; [vm_compute; discriminate|]. split; [reflexivity|]. vm_compute. repeat split; reflexivity.
Qed.

(** (x^3 - 2x + 5) / (x - 3): whole numbers, far below 2^53. *)
Example C88_whole_case : forall powi, let O := float_num true F64 powi in
  match dense_div_mod O 5 (map (f_of_Z F64) [1; 0; -2; 5]%Z) (map (f_of_Z F64) [1; -3]%Z) with
  | Ok (q, r) => map B2SF q = map B2SF (map (f_of_Z F64) [1; 3; 7]%Z) /\ map B2SF r = map B2SF (map (f_of_Z F64) [26]%Z) | _ => False end.
Proof. intros powi O. vm_compute. split; reflexivity. Qed.

Print Assumptions C88_recombine.
Print Assumptions C88_rem_assign.
Print Assumptions C88_undone.
Print Assumptions C88_whole.
Print Assumptions C88_whole_unique.
Print Assumptions C88_monic.
