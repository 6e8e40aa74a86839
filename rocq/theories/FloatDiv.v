(** Floating-point polynomial division: one round of the loop, and bounds for monic divisors. *)

From Coq Require Import List NArith ZArith Reals Lia Lra Bool Arith.
From Coq Require Import ZifyBool ZifyNat ZifyN.
From Flocq Require Import Core BinarySingleNaN.
From Verif Require Import Base Num Terms Dense DenseFacts DenseDiv Floats FloatFacts.
Import ListNotations.
Local Open Scope Z_scope.

(** ** Running the loop *)

Section Rounds.
Context {T : Type} (O : num T) (rhs : list T) (b : T) (m offset : N).

(** One round on the pair (remainder, quotient): [None] when the loop stops there. *)
Definition div_round (s : list T * list T) : option (list T * list T) :=
  match first_term O (fst s) with
  | ZeroTerm => None
  | TTerm c d =>
    if (m <=? d)%N then
      match (scale <- div O c b ;; r' <- vec_sub_w_scale O (fst s) d rhs m scale ;;
             i <- usub (n_chk O) offset d ;; dv' <- update (snd s) i (fun _ => Ok scale) ;; Ok (r', dv')) with
      | Ok s' => match first_term O (fst s') with ZeroTerm => None | TTerm _ _ => Some s' end
      | _ => None
      end
    else None
  end.
Fixpoint div_rounds (k : nat) (s : list T * list T) : option (list T * list T) :=
  match k with
  | 0%nat => Some s
  | S k => match div_round s with Some s' => div_rounds k s' | None => None end
  end.

(** The loop started from the leading term of the remainder. *)
Definition div_from (fuel : nat) (s : list T * list T) : res (list T * list T) :=
  match first_term O (fst s) with
  | ZeroTerm => Ok (snd s, fst s)
  | TTerm c d => div_loop O fuel rhs b m offset c d (fst s) (snd s)
  end.

Lemma div_round_loop f s s' : div_round s = Some s' -> div_from (S f) s = div_from f s'.
Proof.
  unfold div_round, div_from. destruct s as [r q]. cbn [fst snd].
  destruct (first_term O r) as [|c d]; [discriminate|]. cbn [div_loop].
  destruct (m <=? d)%N; [|discriminate].
  destruct (div O c b) as [scale| |]; cbn [bind]; try discriminate.
  destruct (vec_sub_w_scale O r d rhs m scale) as [r'| |]; cbn [bind]; try discriminate.
  destruct (usub (n_chk O) offset d) as [i| |]; cbn [bind]; try discriminate.
  destruct (update q i (fun _ => Ok scale)) as [q'| |]; cbn [bind fst]; try discriminate.
  destruct (first_term O r') as [|c' d'] eqn:E; [discriminate|].
  intros H. injection H as <-. cbn [fst snd]. rewrite E. reflexivity.
Qed.

Lemma div_rounds_loop k f s s' : div_rounds k s = Some s' -> div_from (k + f) s = div_from f s'.
Proof.
  revert s. induction k as [|k IH]; intros s H; simpl in H; [injection H as <-; reflexivity|].
  destruct (div_round s) as [s1|] eqn:E; [|discriminate]. rewrite <- (IH _ H). apply div_round_loop, E.
Qed.

(** A state that goes on from itself never stops; nor does one that leads to it. *)
Lemma div_from_mono_fuel k s s' : div_rounds k s = Some s' -> (forall f, div_from f s' = Fuel) ->
  forall f, div_from f s = Fuel.
Proof.
  intros H Hs f. destruct (Nat.le_gt_cases k f) as [Hk|Hk].
  - replace f with (k + (f - k))%nat by lia. rewrite (div_rounds_loop _ _ _ _ H). apply Hs.
  - revert s f H Hk. induction k as [|k IH]; intros s f H Hk; [lia|]. simpl in H.
    destruct (div_round s) as [s1|] eqn:E; [|discriminate]. destruct f as [|f].
    + unfold div_from. unfold div_round in E. destruct s as [r q]. cbn [fst snd] in *.
      destruct (first_term O r); [discriminate|reflexivity].
    + rewrite (div_round_loop _ _ _ E). apply IH; [exact H|lia].
Qed.
Lemma div_from_stuck s : div_round s = Some s -> forall f, div_from f s = Fuel.
Proof.
  intros H f. induction f as [|f IH].
  - unfold div_round in H. unfold div_from. destruct s as [r q]. cbn [fst snd] in *.
    destruct (first_term O r); [discriminate|reflexivity].
  - rewrite (div_round_loop _ _ _ H). exact IH.
Qed.
End Rounds.

(** ** Bounds *)

Section Bounds.
Context (f : fty) (powi : flt f -> N -> flt f) (chk : bool).
Notation prec := (fprec f).
Notation emax := (femax f).
Notation fexp := (SpecFloat.fexp prec emax).
Notation O := (float_num chk f powi).
#[local] Instance fexp_valid' : Valid_exp fexp := FLT_exp_valid (SpecFloat.emin prec emax) prec.
Notation rnd := (round radix2 fexp (round_mode mode_NE)).

(** Finite with magnitude at most 2^k. *)
Definition fbound (k : Z) (x : flt f) : Prop := is_finite x = true /\ (Rabs (B2R x) <= bpow radix2 k)%R.

Lemma bpow_format k : 0 <= k -> generic_format radix2 fexp (bpow radix2 k).
Proof.
  intros Hk. pose proof (fsizes f) as (P1 & P2 & P3 & P4 & _). apply generic_format_bpow. unfold SpecFloat.fexp.
  destruct (Z.max_spec (k + 1 - prec) (SpecFloat.emin prec emax)) as [[? ->]|[? ->]]; lia.
Qed.

Lemma rnd_bound k x : 0 <= k -> (Rabs x <= bpow radix2 k)%R -> (Rabs (rnd x) <= bpow radix2 k)%R.
Proof.
  intros Hk Hx. apply abs_round_le_generic; [exact fexp_valid'|apply valid_rnd_N|apply bpow_format, Hk|exact Hx].
Qed.

Lemma rnd_lt k x : 0 <= k < emax -> (Rabs x <= bpow radix2 k)%R -> Rlt_bool (Rabs (rnd x)) (bpow radix2 emax) = true.
Proof.
  intros Hk Hx. apply Rlt_bool_true. apply Rle_lt_trans with (bpow radix2 k); [apply rnd_bound; lia || exact Hx|].
  apply bpow_lt. lia.
Qed.

Lemma fmul_bound i j x y : 0 <= i -> 0 <= j -> i + j < emax -> fbound i x -> fbound j y -> fbound (i + j) (fmul x y).
Proof.
  intros Hi Hj Hm [Fx Bx] [Fy By].
  assert (B : (Rabs (B2R x * B2R y) <= bpow radix2 (i + j))%R).
  { rewrite Rabs_mult, bpow_plus. apply Rmult_le_compat; auto using Rabs_pos. }
  pose proof (Bmult_correct prec emax _ _ mode_NE x y) as K.
  rewrite (rnd_lt (i + j)) in K by (lia || exact B). destruct K as (K1 & K2 & _).
  split; unfold fmul.
  - rewrite K2, Fx, Fy. reflexivity.
  - rewrite K1. apply rnd_bound; [lia|exact B].
Qed.

Lemma fsub_bound i x y : 0 <= i -> i + 1 < emax -> fbound i x -> fbound i y -> fbound (i + 1) (fsub x y).
Proof.
  intros Hi Hm [Fx Bx] [Fy By].
  assert (B : (Rabs (B2R x - B2R y) <= bpow radix2 (i + 1))%R).
  { rewrite bpow_plus. change (bpow radix2 1) with 2%R.
    pose proof (Rabs_triang (B2R x) (- B2R y)) as Ht. rewrite Rabs_Ropp in Ht.
    unfold Rminus. lra. }
  pose proof (Bminus_correct prec emax _ _ mode_NE x y Fx Fy) as K.
  rewrite (rnd_lt (i + 1)) in K by (lia || exact B). destruct K as (K1 & K2 & _).
  split; unfold fsub; [exact K2|]. rewrite K1. apply rnd_bound; [lia|exact B].
Qed.

Lemma fbound_le i j x : i <= j -> fbound i x -> fbound j x.
Proof. intros H [A B]. split; [exact A|]. eapply Rle_trans; [exact B|]. apply bpow_le, H. Qed.

Lemma rnd_B2R (x : flt f) : rnd (B2R x) = B2R x.
Proof. apply round_generic; [apply valid_rnd_N|apply generic_format_B2R]. Qed.

Lemma lt_emax (x : flt f) : Rlt_bool (Rabs (B2R x)) (bpow radix2 emax) = true.
Proof. apply Rlt_bool_true, abs_B2R_lt_emax. Qed.

(** Dividing by, or multiplying with, a value equal to 1 changes nothing. *)
Lemma fdiv_one (c b : flt f) : is_finite c = true -> B2R b = 1%R ->
  is_finite (fdiv c b) = true /\ B2R (fdiv c b) = B2R c.
Proof.
  intros Hc Hb. pose proof (Bdiv_correct prec emax _ _ mode_NE c b ltac:(lra)) as K.
  replace (B2R c / B2R b)%R with (B2R c) in K by (rewrite Hb; field).
  rewrite rnd_B2R, lt_emax in K. destruct K as (K1 & K2 & _). split; [rewrite <- Hc; exact K2|exact K1].
Qed.
Lemma fmul_one (b s : flt f) : is_finite b = true -> is_finite s = true -> B2R b = 1%R ->
  is_finite (fmul b s) = true /\ B2R (fmul b s) = B2R s.
Proof.
  intros Fb Fs Hb. pose proof (Bmult_correct prec emax _ _ mode_NE b s) as K.
  replace (B2R b * B2R s)%R with (B2R s) in K by (rewrite Hb; ring).
  rewrite rnd_B2R, lt_emax in K. destruct K as (K1 & K2 & _). split; [unfold fmul; rewrite K2, Fb, Fs; reflexivity|exact K1].
Qed.
Lemma fsub_same (x y : flt f) : is_finite x = true -> is_finite y = true -> B2R x = B2R y ->
  is_finite (fsub x y) = true /\ B2R (fsub x y) = 0%R.
Proof.
  intros Fx Fy E. pose proof (Bminus_correct prec emax _ _ mode_NE x y Fx Fy) as K.
  replace (B2R x - B2R y)%R with 0%R in K by (rewrite E; ring).
  rewrite round_0 in K by apply valid_rnd_N. rewrite Rabs_R0, Rlt_bool_true in K by apply bpow_gt_0.
  destruct K as (K1 & K2 & _). split; [exact K2|exact K1].
Qed.

Lemma fis_zero (x : flt f) : is_finite x = true -> (is_zero O x = true <-> B2R x = 0%R).
Proof.
  intros Fx. cbn [is_zero float_num]. unfold feqb. rewrite Beqb_correct by (assumption || reflexivity). simpl (B2R (fzero f)).
  case Req_bool_spec; intros; split; intros; congruence.
Qed.

Lemma sub_step_ok (s x y : flt f) : sub_step O s x y = Ok (fsub x (fmul y s)).
Proof. reflexivity. Qed.

(** Elements of the remainder after one subtraction. *)
Lemma zip_bound i a s l r q : 0 <= i -> 0 <= a -> i + a + 1 < emax -> Forall (fbound i) l -> Forall (fbound a) r ->
  fbound i s -> zipM (sub_step O s) l r = Ok q -> Forall (fbound (i + a + 1)) q.
Proof.
  intros Hi Ha Hm Hl Hr Hs. revert r Hr q. induction Hl as [|x l Hx Hl IH]; intros r Hr q H.
  - destruct r; apply Ok_inj in H; subst q; constructor.
  - destruct Hr as [|y r Hy Hr]; cbn [zipM] in H.
    + apply Ok_inj in H. subst q. constructor; [apply (fbound_le i); [lia|exact Hx]|].
      eapply Forall_impl; [|exact Hl]. intros z. apply fbound_le. lia.
    + rewrite sub_step_ok in H. cbn [bind] in H.
      destruct (zipM (sub_step O s) l r) as [zs| |] eqn:E; cbn [bind] in H; try discriminate. apply Ok_inj in H. subst q.
      constructor; [|apply (IH _ Hr), E].
      apply (fbound_le ((i + a) + 1)); [lia|]. apply fsub_bound; [lia|lia| |].
      * apply (fbound_le i); [lia|exact Hx].
      * replace (i + a) with (a + i) by lia. apply fmul_bound; try lia; assumption.
Qed.

Lemma zip_total s l r : exists q, zipM (sub_step O s) l r = Ok q /\ length q = length l.
Proof.
  revert r. induction l as [|x l IH]; intros [|y r]; cbn [zipM]; try (eexists; split; reflexivity). rewrite sub_step_ok. cbn [bind].
  destruct (IH r) as (q & E & L). rewrite E. cbn [bind]. eexists. split; [reflexivity|]. simpl. lia.
Qed.

Lemma Forall_firstn {A} (P : A -> Prop) n l : Forall P l -> Forall P (firstn n l).
Proof. intros H. revert n. induction H; intros [|n]; simpl; constructor; auto. Qed.
Lemma Forall_skipn {A} (P : A -> Prop) n l : Forall P l -> Forall P (skipn n l).
Proof. intros H. revert n. induction H; intros [|n]; simpl; try constructor; auto. Qed.

Lemma first_term_zeros (P zs : list (flt f)) : all_zero O P -> first_term O (P ++ zs) = first_term O zs.
Proof.
  intros HP. rewrite !first_term_strip.
  assert (strip O (P ++ zs) = strip O zs) as ->; [|reflexivity].
  induction HP as [|x P Hx _ IH]; [reflexivity|]. unfold strip in *. cbn [app fnz]. rewrite Hx. exact IH.
Qed.

(** One round with a monic divisor removes the leading term. *)
Lemma monic_round rhs b m rem c sd i a : first_term O rhs = TTerm b m -> B2R b = 1%R -> is_finite b = true ->
  first_term O rem = TTerm c sd -> Forall (fbound i) rem -> Forall (fbound a) rhs -> 0 <= i -> 0 <= a -> i + a + 1 < emax ->
  exists rem', vec_sub_w_scale O rem sd rhs m (fdiv c b) = Ok rem' /\ Forall (fbound (i + a + 1)) rem' /\
    fbound i (fdiv c b) /\
    match first_term O rem' with ZeroTerm => True | TTerm _ sd' => (sd' < sd)%N end.
Proof.
  intros Hr Hb Fb Hl Bl Br Hi Ha Hm. rewrite (vec_sub_unfold O _ _ _ _ _ _ _ Hl Hr).
  destruct (first_term_TTerm O rem c sd Hl) as (q & Sl & Ll & Zc).
  destruct (first_term_TTerm O rhs b m Hr) as (qr & Sr & Lr & Zb).
  assert (Bs : Forall (fbound i) (strip O rem)) by (apply Forall_skipn, Bl).
  assert (Bc : fbound i c) by (rewrite Sl in Bs; inversion Bs; assumption).
  destruct (fdiv_one c b (proj1 Bc) Hb) as [Fd Ed].
  assert (Bd : fbound i (fdiv c b)) by (split; [exact Fd|rewrite Ed; apply Bc]).
  destruct (zip_total (fdiv c b) (strip O rem) (strip O rhs)) as (t & Et & Lt). rewrite Et. cbn [bind].
  eexists. split; [reflexivity|]. split; [|split; [exact Bd|]].
  - apply Forall_app. split.
    + apply Forall_firstn. eapply Forall_impl; [|exact Bl]. intros x. apply fbound_le. lia.
    + eapply zip_bound; try exact Et; try assumption. apply Forall_skipn, Br.
  - rewrite Sl, Sr in Et. cbn [zipM] in Et. rewrite sub_step_ok in Et. cbn [bind] in Et.
    destruct (zipM (sub_step O (fdiv c b)) q qr) as [zs| |] eqn:Ez; cbn [bind] in Et; try discriminate.
    apply Ok_inj in Et. subst t.
    destruct (fmul_one b (fdiv c b) Fb Fd Hb) as [Fm Em].
    destruct (fsub_same c (fmul b (fdiv c b)) (proj1 Bc) Fm) as [Fz Ez0]; [rewrite Em, Ed; reflexivity|].
    set (z := fsub c (fmul b (fdiv c b))) in *.
    assert (Zz : is_zero O z = true) by (apply fis_zero; assumption).
    assert (Hp : all_zero O (firstn (fnz O rem) rem ++ [z])).
    { destruct (strip_split O rem) as (pre & Ep & Lp & Ap & _).
      assert (firstn (fnz O rem) rem = pre) as ->. { rewrite Ep at 2. rewrite <- Lp. apply firstn_length_app. }
      apply Forall_app. split; [exact Ap|]. constructor; [exact Zz|constructor]. }
    replace (firstn (fnz O rem) rem ++ z :: zs) with ((firstn (fnz O rem) rem ++ [z]) ++ zs) by (rewrite <- app_assoc; reflexivity).
    rewrite (first_term_zeros _ _ Hp). apply zipM_length in Ez.
    destruct (first_term O zs) as [|c' sd'] eqn:E'; [exact I|].
    destruct (first_term_TTerm O _ _ _ E') as (q' & S' & L' & _).
    destruct (strip_split O zs) as (pre' & Ep' & _). rewrite S' in Ep'. apply (f_equal (@length _)) in Ep'.
    rewrite app_length in Ep'. simpl in Ep'. unfold len in *. lia.
Qed.

(** The loop with a monic divisor: one round per degree. *)
Lemma monic_loop rhs b m a offset : first_term O rhs = TTerm b m -> B2R b = 1%R -> is_finite b = true ->
  Forall (fbound a) rhs -> 0 <= a -> (m <= offset)%N ->
  forall fuel (rem : list (flt f)) (c : flt f) sd (dv : list (flt f)) i, first_term O rem = TTerm c sd -> Forall (fbound i) rem -> 0 <= i ->
  (sd <= offset)%N -> length dv = S (N.to_nat (offset - m)) ->
  i + (Z.of_N sd - Z.of_N m + 1) * (a + 1) < emax -> Forall (fun x : flt f => is_finite x = true) dv ->
  (S (N.to_nat sd) - N.to_nat m < fuel)%nat ->
  exists dv' rem', div_loop O fuel rhs b m offset c sd rem dv = Ok (dv', rem') /\
    Forall (fun x : flt f => is_finite x = true) dv' /\ Forall (fun x : flt f => is_finite x = true) rem' /\
    match first_term O rem' with ZeroTerm => True | TTerm _ sd' => (sd' < m)%N end.
Proof.
  intros Hr Hb Fb Br Ha Hmo. induction fuel as [|fuel IH]; intros rem c sd dv i Hf Bl Hi Hso Hlen Hm Fdv Hfu; [lia|].
  assert (Fr : forall j l, Forall (fbound j) l -> Forall (fun x : flt f => is_finite x = true) l).
  { intros j l H. eapply Forall_impl; [|exact H]. intros x Hx. apply Hx. }
  cbn [div_loop]. destruct (N.leb_spec m sd) as [Hms|Hms].
  - assert (i + a + 1 < emax) by nia. cbn [div float_num bind].
    destruct (monic_round rhs b m rem c sd i a Hr Hb Fb Hf Bl Br Hi Ha) as (rem' & Hv & Bv & Bd & Hdeg); [lia|].
    rewrite Hv. cbn [bind]. rewrite usub_le by lia. cbn [bind].
    destruct (@update_returns (flt f) dv (offset - sd) (fdiv c b)) as (dv' & Hu); [unfold len; lia|].
    rewrite Hu. cbn [bind].
    assert (Hd' : length dv' = length dv /\ Forall (fun x : flt f => is_finite x = true) dv').
    { unfold update in Hu. destruct (_ <? _)%N; [|discriminate]. apply update_nat_spec in Hu.
      destruct Hu as (pre & x & post & y' & -> & _ & Hy & ->). apply Ok_inj in Hy. subst y'. rewrite !app_length.
      split; [reflexivity|]. apply Forall_app in Fdv. destruct Fdv as [F1 F2]. inversion F2; subst.
      apply Forall_app. split; [exact F1|]. constructor; [apply Bd|assumption]. }
    destruct (first_term O rem') as [|c' sd'] eqn:E'.
    + exists dv', rem'. rewrite E'. split; [reflexivity|]. split; [apply Hd'|]. split; [eapply Fr, Bv|exact I].
    + destruct Hd' as [Ld Fd]. apply (IH rem' c' sd' dv' (i + a + 1)); auto; try lia.
      assert (Z.of_N sd' - Z.of_N m + 1 <= Z.of_N sd - Z.of_N m) by lia. nia.
  - exists dv, rem. rewrite Hf. split; [reflexivity|]. split; [exact Fdv|]. split; [eapply Fr, Bl|exact Hms].
Qed.
End Bounds.
