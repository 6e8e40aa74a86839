(** Property C55, continued: divisors whose leading coefficient is a negative power of two, the
    assigning remainder, and a divisor with leading coefficient 2 for which division never returns. *)

From Coq Require Import List NArith ZArith Reals Lia Lra Bool Arith.
From Coq Require Import ZifyBool ZifyNat ZifyN.
From Flocq Require Import Core BinarySingleNaN Mult_error.
From Verif Require Import Base Num Laws Terms Dense DenseFacts DenseDiv Floats FloatFacts FloatDiv P_FloatDiv.
Import ListNotations.
Local Open Scope Z_scope.

Section Bounds.
Context (f : fty) (powi : flt f -> N -> flt f) (chk : bool).
Notation prec := (fprec f).
Notation emax := (femax f).
Notation fexp := (SpecFloat.fexp prec emax).
Notation O := (float_num chk f powi).
#[local] Instance fexp_valid2 : Valid_exp fexp := FLT_exp_valid (SpecFloat.emin prec emax) prec.
Notation rnd := (round radix2 fexp (round_mode mode_NE)).
Notation fbound := (fbound f).

(** A power of two that is at most 1, of either sign. *)
Definition half_power (k : Z) (b : flt f) : Prop := 0 <= k /\ Rabs (B2R b) = bpow radix2 (- k).

Lemma half_nonzero k b : half_power k b -> B2R b <> 0%R.
Proof. intros [_ H] E. rewrite E, Rabs_R0 in H. pose proof (bpow_gt_0 radix2 (- k)). lra. Qed.
Lemma half_inv k b : half_power k b -> (/ B2R b = bpow radix2 k \/ / B2R b = - bpow radix2 k)%R.
Proof.
  intros [Hk H]. rewrite bpow_opp in H. pose proof (bpow_gt_0 radix2 k) as G.
  destruct (Rle_lt_dec 0 (B2R b)) as [P|P].
  - rewrite Rabs_pos_eq in H by exact P. left. rewrite H. field. lra.
  - rewrite Rabs_left in H by exact P. right. replace (B2R b) with (- / bpow radix2 k)%R by lra. field. lra.
Qed.

Lemma scaled_format k b (c : flt f) : half_power k b -> generic_format radix2 fexp (B2R c / B2R b).
Proof.
  intros H. assert (G : generic_format radix2 fexp (B2R c * bpow radix2 k)).
  { apply (mult_bpow_pos_exact_FLT radix2 (SpecFloat.emin prec emax) prec); [apply generic_format_B2R|apply H]. }
  unfold Rdiv. destruct (half_inv k b H) as [-> | ->]; [exact G|].
  replace (B2R c * - bpow radix2 k)%R with (- (B2R c * bpow radix2 k))%R by ring. apply generic_format_opp, G.
Qed.

(** Dividing by it is exact. *)
Lemma fdiv_half i k c b : half_power k b -> fbound i c -> 0 <= i -> i + k < emax ->
  fbound (i + k) (fdiv c b) /\ B2R (fdiv c b) = (B2R c / B2R b)%R.
Proof.
  intros Hb [Fc Bc] Hi Hm. pose proof (Bdiv_correct prec emax _ _ mode_NE c b (half_nonzero k b Hb)) as K.
  assert (E : rnd (B2R c / B2R b) = (B2R c / B2R b)%R) by (apply round_generic; [apply valid_rnd_N|apply (scaled_format k), Hb]).
  assert (B : (Rabs (B2R c / B2R b) <= bpow radix2 (i + k))%R).
  { unfold Rdiv. rewrite Rabs_mult, bpow_plus. apply Rmult_le_compat; try apply Rabs_pos; [exact Bc|].
    pose proof (bpow_ge_0 radix2 k). destruct (half_inv k b Hb) as [-> | ->]; rewrite ?Rabs_Ropp, Rabs_pos_eq by assumption; apply Rle_refl. }
  rewrite E, Rlt_bool_true in K; [|eapply Rle_lt_trans; [exact B|apply bpow_lt, Hm]].
  destruct K as (K1 & K2 & _). split; [split|exact K1].
  - unfold fdiv. rewrite K2. exact Fc.
  - unfold fdiv. rewrite K1. exact B.
Qed.
Lemma fmul_back k (c b s : flt f) : half_power k b -> is_finite b = true -> is_finite s = true -> B2R s = (B2R c / B2R b)%R ->
  is_finite (fmul b s) = true /\ B2R (fmul b s) = B2R c.
Proof.
  intros Hb Fb Fs Es. pose proof (Bmult_correct prec emax _ _ mode_NE b s) as K.
  replace (B2R b * B2R s)%R with (B2R c) in K by (rewrite Es; field; eapply half_nonzero, Hb).
  rewrite rnd_B2R, lt_emax in K. destruct K as (K1 & K2 & _). split; [unfold fmul; rewrite K2, Fb, Fs; reflexivity|exact K1].
Qed.

Lemma half_round rhs b m rem c sd i a k : first_term O rhs = TTerm b m -> half_power k b -> is_finite b = true ->
  first_term O rem = TTerm c sd -> Forall (fbound i) rem -> Forall (fbound a) rhs -> 0 <= i -> 0 <= a -> i + (a + k + 1) < emax ->
  exists rem', vec_sub_w_scale O rem sd rhs m (fdiv c b) = Ok rem' /\ Forall (fbound (i + (a + k + 1))) rem' /\
    is_finite (fdiv c b) = true /\
    match first_term O rem' with ZeroTerm => True | TTerm _ sd' => (sd' < sd)%N end.
Proof.
  intros Hr Hb Fb Hl Bl Br Hi Ha Hm. rewrite (vec_sub_unfold O _ _ _ _ _ _ _ Hl Hr).
  destruct (first_term_TTerm O rem c sd Hl) as (q & Sl & Ll & Zc).
  destruct (first_term_TTerm O rhs b m Hr) as (qr & Sr & Lr & Zb).
  pose proof (proj1 Hb) as Hk.
  assert (Bs : Forall (fbound i) (strip O rem)) by (apply Forall_skipn, Bl).
  assert (Bc : fbound i c) by (rewrite Sl in Bs; inversion Bs; assumption).
  destruct (fdiv_half i k c b Hb Bc Hi) as [Bd Ed]; [lia|]. pose proof (proj1 Bd) as Fd.
  destruct (zip_total f powi chk (fdiv c b) (strip O rem) (strip O rhs)) as (t & Et & Lt). rewrite Et. cbn [bind].
  eexists. split; [reflexivity|]. split; [|split; [exact Fd|]].
  - apply Forall_app. split.
    + apply Forall_firstn. eapply Forall_impl; [|exact Bl]. intros x. apply fbound_le. lia.
    + replace (i + (a + k + 1)) with ((i + k) + a + 1) by lia.
      eapply (zip_bound f powi chk); try exact Et; try exact Bd; try lia; [|apply Forall_skipn, Br].
      eapply Forall_impl; [|exact Bs]. intros x. apply fbound_le. lia.
  - rewrite Sl, Sr in Et. cbn [zipM] in Et. rewrite sub_step_ok in Et. cbn [bind] in Et.
    destruct (zipM (sub_step O (fdiv c b)) q qr) as [zs| |] eqn:Ez; cbn [bind] in Et; try discriminate.
    apply Ok_inj in Et. subst t.
    destruct (fmul_back k c b (fdiv c b) Hb Fb Fd Ed) as [Fm Em].
    destruct (fsub_same f c (fmul b (fdiv c b)) (proj1 Bc) Fm) as [Fz Ez0]; [rewrite Em; reflexivity|].
    set (z := fsub c (fmul b (fdiv c b))) in *.
    assert (Zz : is_zero O z = true) by (apply fis_zero; assumption).
    assert (Hp : all_zero O (firstn (fnz O rem) rem ++ [z])).
    { destruct (strip_split O rem) as (pre & Ep & Lp & Ap & _).
      assert (firstn (fnz O rem) rem = pre) as ->. { rewrite Ep at 2. rewrite <- Lp. apply firstn_length_app. }
      apply Forall_app. split; [exact Ap|]. constructor; [exact Zz|constructor]. }
    replace (firstn (fnz O rem) rem ++ z :: zs) with ((firstn (fnz O rem) rem ++ [z]) ++ zs) by (rewrite <- app_assoc; reflexivity).
    rewrite (first_term_zeros f powi chk _ _ Hp). apply zipM_length in Ez.
    destruct (first_term O zs) as [|c' sd'] eqn:E'; [exact I|].
    destruct (first_term_TTerm O _ _ _ E') as (q' & S' & L' & _).
    destruct (strip_split O zs) as (pre' & Ep' & _). rewrite S' in Ep'. apply (f_equal (@length _)) in Ep'.
    rewrite app_length in Ep'. simpl in Ep'. unfold len in *. lia.
Qed.

Notation finite_all := (Forall (fun x : flt f => is_finite x = true)).

Lemma bound_finite j l : Forall (fbound j) l -> finite_all l.
Proof. intros H. eapply Forall_impl; [|exact H]. intros x Hx. apply Hx. Qed.

Lemma half_loop rhs b m a k offset : first_term O rhs = TTerm b m -> half_power k b -> is_finite b = true ->
  Forall (fbound a) rhs -> 0 <= a -> (m <= offset)%N ->
  forall fuel (rem : list (flt f)) (c : flt f) sd (dv : list (flt f)) i, first_term O rem = TTerm c sd -> Forall (fbound i) rem -> 0 <= i ->
  (sd <= offset)%N -> length dv = S (N.to_nat (offset - m)) ->
  i + (Z.of_N sd - Z.of_N m + 1) * (a + k + 1) < emax -> finite_all dv ->
  (S (N.to_nat sd) - N.to_nat m < fuel)%nat ->
  exists dv' rem', div_loop O fuel rhs b m offset c sd rem dv = Ok (dv', rem') /\
    finite_all dv' /\ finite_all rem' /\
    match first_term O rem' with ZeroTerm => True | TTerm _ sd' => (sd' < m)%N end.
Proof.
  intros Hr Hb Fb Br Ha Hmo. pose proof (proj1 Hb) as Hk.
  induction fuel as [|fuel IH]; intros rem c sd dv i Hf Bl Hi Hso Hlen Hm Fdv Hfu; [lia|].
  cbn [div_loop]. destruct (N.leb_spec m sd) as [Hms|Hms].
  - assert (i + (a + k + 1) < emax) by nia. cbn [div float_num bind].
    destruct (half_round rhs b m rem c sd i a k Hr Hb Fb Hf Bl Br Hi Ha) as (rem' & Hv & Bv & Bd & Hdeg); [lia|].
    rewrite Hv. cbn [bind]. rewrite usub_le by lia. cbn [bind].
    destruct (@update_returns (flt f) dv (offset - sd) (fdiv c b)) as (dv' & Hu); [unfold len; lia|].
    rewrite Hu. cbn [bind].
    assert (Hd' : length dv' = length dv /\ finite_all dv').
    { unfold update in Hu. destruct (_ <? _)%N; [|discriminate]. apply update_nat_spec in Hu.
      destruct Hu as (pre & x & post & y' & -> & _ & Hy & ->). apply Ok_inj in Hy. subst y'. rewrite !app_length.
      split; [reflexivity|]. apply Forall_app in Fdv. destruct Fdv as [F1 F2]. inversion F2; subst.
      apply Forall_app. split; [exact F1|]. constructor; [apply Bd|assumption]. }
    destruct (first_term O rem') as [|c' sd'] eqn:E'.
    + exists dv', rem'. rewrite E'. split; [reflexivity|]. split; [apply Hd'|]. split; [eapply bound_finite, Bv|exact I].
    + destruct Hd' as [Ld Fd]. apply (IH rem' c' sd' dv' (i + (a + k + 1))); auto; try lia.
      assert (Z.of_N sd' - Z.of_N m + 1 <= Z.of_N sd - Z.of_N m) by lia. nia.
  - exists dv, rem. rewrite Hf. split; [reflexivity|]. split; [exact Fdv|]. split; [eapply bound_finite, Bl|exact Hms].
Qed.

(** [%=] runs the same rounds without the quotient. *)
Lemma half_rem_loop rhs b m a k : first_term O rhs = TTerm b m -> half_power k b -> is_finite b = true ->
  Forall (fbound a) rhs -> 0 <= a ->
  forall fuel (rem : list (flt f)) (c : flt f) sd i, first_term O rem = TTerm c sd -> Forall (fbound i) rem -> 0 <= i ->
  i + (Z.of_N sd - Z.of_N m + 1) * (a + k + 1) < emax ->
  (S (N.to_nat sd) - N.to_nat m < fuel)%nat ->
  exists rem', rem_assign_loop O fuel rhs b m (fdiv c b) sd rem = Ok rem' /\ finite_all rem' /\
    match first_term O rem' with ZeroTerm => True | TTerm _ sd' => (sd' < m)%N end.
Proof.
  intros Hr Hb Fb Br Ha. pose proof (proj1 Hb) as Hk.
  induction fuel as [|fuel IH]; intros rem c sd i Hf Bl Hi Hm Hfu; [lia|].
  cbn [rem_assign_loop]. destruct (N.leb_spec m sd) as [Hms|Hms].
  - assert (i + (a + k + 1) < emax) by nia.
    destruct (half_round rhs b m rem c sd i a k Hr Hb Fb Hf Bl Br Hi Ha) as (rem' & Hv & Bv & Bd & Hdeg); [lia|].
    rewrite Hv. cbn [bind]. destruct (first_term O rem') as [|c' sd'] eqn:E'.
    + exists rem'. rewrite E'. split; [reflexivity|]. split; [eapply bound_finite, Bv|exact I].
    + cbn [div float_num bind]. apply (IH rem' c' sd' (i + (a + k + 1))); auto; try lia.
      assert (Z.of_N sd' - Z.of_N m + 1 <= Z.of_N sd - Z.of_N m) by lia. nia.
  - exists rem. rewrite Hf. split; [reflexivity|]. split; [eapply bound_finite, Bl|exact Hms].
Qed.

Lemma lead_finite a d l m : Forall (fbound a) d -> first_term O d = TTerm l m -> is_finite l = true.
Proof.
  intros Bd Hd. destruct (first_term_TTerm O d l m Hd) as (qd & Sd & Ld & _).
  destruct (strip_split O d) as (pd & Ed & _). rewrite Sd in Ed. rewrite Ed in Bd.
  apply Forall_app in Bd. destruct Bd as [_ Bd]. inversion Bd as [|? ? H2]; subst. apply H2.
Qed.
End Bounds.

(** What holds: with a divisor whose leading coefficient is 1, 1/2, 1/4, ... or their negatives, and
    magnitudes bounded so that nothing overflows, [div_mod] and [%=] return after at most one round per
    degree, with finite results and a remainder of smaller degree.  Missing from the full statement: other
    divisors, for which it is false. *)
Theorem C55_half_power_partial : forall f chk powi (p d : list (flt f)) a b k m c n l fuel,
  let O := float_num chk f powi in
  0 <= a -> 0 <= b -> 0 <= k -> vec_ok O p ->
  Forall (fun x : flt f => is_finite x = true /\ (Rabs (B2R x) <= bpow radix2 b)%R) p ->
  Forall (fun x : flt f => is_finite x = true /\ (Rabs (B2R x) <= bpow radix2 a)%R) d ->
  first_term O d = TTerm l m -> Rabs (B2R l) = bpow radix2 (- k) ->
  first_term O p = TTerm c n ->
  b + (Z.of_N n - Z.of_N m + 1) * (a + k + 1) < femax f ->
  (N.to_nat n - N.to_nat m + 2 <= fuel)%nat ->
  (exists q r, dense_div_mod O fuel p d = Ok (q, r) /\
     Forall (fun x : flt f => is_finite x = true) q /\ Forall (fun x : flt f => is_finite x = true) r /\
     match first_term O r with ZeroTerm => True | TTerm _ j => (j < m)%N end) /\
  (exists r, dense_rem_assign O fuel p d = Ok r /\ Forall (fun x : flt f => is_finite x = true) r /\
     match first_term O r with ZeroTerm => True | TTerm _ j => (j < m)%N end).
Proof.
  intros f chk powi p d a b k m c n l fuel O Ha Hb Hk Hv Bp Bd Hd Hl Hp Hm Hfu.
  pose proof (conj Hk Hl : half_power f k l) as Hh. pose proof (lead_finite f powi chk a d l m Bd Hd) as Fl.
  assert (Fp : Forall (fun x : flt f => is_finite x = true) p) by (eapply Forall_impl; [|exact Bp]; intros x Hx; apply Hx).
  split.
  - unfold dense_div_mod. rewrite Hd, Hp. destruct (N.ltb_spec n m) as [Hnm|Hnm].
    + exists [], p. rewrite Hp. split; [reflexivity|]. split; [constructor|]. split; [exact Fp|exact Hnm].
    + destruct (first_term_TTerm O p c n Hp) as (q0 & Sp & Lp & _).
      destruct (strip_split O p) as (pre & Ep & _). rewrite Sp in Ep. apply (f_equal (@length _)) in Ep.
      rewrite app_length in Ep. simpl in Ep. unfold vec_ok, len in *.
      assert (Hcap : (n_max_len O <= 2 ^ 63)%N) by (destruct f; vm_compute; discriminate).
      assert (Hn : (n < n_max_len O)%N) by lia.
      rewrite usub_le by lia. cbn [bind]. rewrite uadd_small by (unfold USIZE_MAX; lia). cbn [bind].
      unfold vec_repeat. destruct (N.leb_spec (n - m + 1) (n_max_len O)); [|lia]. cbn [bind].
      destruct (half_loop f powi chk d l m a k n Hd Hh Fl Bd Ha Hnm fuel p c n (repeat (zero O) (N.to_nat (n - m + 1))) b Hp Bp Hb)
        as (dv' & rem' & G0 & G1 & G2 & G3); try lia.
      * rewrite repeat_length. lia.
      * clear. generalize (N.to_nat (n - m + 1)) as j. intros j. induction j; simpl; constructor; auto.
      * match goal with |- context[bind ?X _] => change X with (div_loop O fuel d l m n c n p (@repeat (flt f) (zero O) (N.to_nat (n - m + 1)))) end.
        fold O in G0. rewrite G0.
        cbn [bind]. rewrite !dense_new_ok. cbn [bind]. exists (strip O dv'), (strip O rem').
        split; [reflexivity|]. split; [apply Forall_skipn, G1|]. split; [apply Forall_skipn, G2|].
        assert (first_term O (strip O rem') = first_term O rem') as ->; [|exact G3].
        rewrite !first_term_strip.
        assert (strip O (strip O rem') = strip O rem') as ->; [|reflexivity].
        destruct (strip_split O rem') as (_ & _ & _ & _ & Hs). destruct (strip O rem') as [|y ys] eqn:Es; [reflexivity|].
        unfold strip. cbn [fnz]. rewrite Hs. reflexivity.
  - unfold dense_rem_assign. rewrite Hd, Hp. destruct (N.ltb_spec n m) as [Hnm|Hnm].
    + exists p. rewrite Hp. split; [reflexivity|]. split; [exact Fp|exact Hnm].
    + cbn [div float_num O bind]. apply (half_rem_loop f powi chk d l m a k Hd Hh Fl Bd Ha fuel p c n b Hp Bp Hb); [exact Hm|lia].
Qed.

(** The smallest positive f64 times x, divided by 2x, never returns: the quotient of the leading
    coefficients underflows to zero, so a round changes nothing. *)
Definition f64_least : flt F64 := @B754_finite (fprec F64) (femax F64) false 1 (-1074) eq_refl.

Theorem C55_underflow_refuted : exists p d : list (flt F64),
  Forall (fun x : flt F64 => is_finite x = true) p /\ Forall (fun x : flt F64 => is_finite x = true) d /\
  map (@B2R _ _) p = [bpow radix2 (-1074); 0%R] /\ map (@B2R _ _) d = [2%R; 0%R] /\
  forall chk powi fuel, dense_div_mod (float_num chk F64 powi) fuel p d = Fuel /\ dense_rem_assign (float_num chk F64 powi) fuel p d = Fuel.
Proof.
  exists [f64_least; f_of_Z F64 0], (f64_cx 2).
  destruct (f_of_Z_small F64 0) as [B0 A0]; [vm_compute; discriminate|].
  destruct (f_of_Z_small F64 2) as [B2 A2]; [vm_compute; discriminate|].
  split; [repeat constructor; assumption|]. split; [repeat constructor; assumption|].
  split; [cbn [map]; rewrite B0; unfold f64_least, B2R, F2R; cbn [Fnum Fexp cond_Zopp]; rewrite Rmult_1_l; reflexivity|].
  split; [unfold f64_cx; cbn [map]; rewrite B2, B0; reflexivity|].
  intros chk powi fuel. set (O := float_num chk F64 powi). set (p := [f64_least; f_of_Z F64 0]).
  assert (F1 : first_term O p = TTerm f64_least 1) by reflexivity.
  assert (F2 : first_term O (f64_cx 2) = TTerm (f_of_Z F64 2) 1) by reflexivity.
  assert (D : fdiv f64_least (f_of_Z F64 2) = fzero F64) by (apply B2SF_inj; vm_compute; reflexivity).
  assert (V : vec_sub_w_scale O p 1 (f64_cx 2) 1 (fzero F64) = Ok p).
  { assert (K : match vec_sub_w_scale O p 1 (f64_cx 2) 1 (fzero F64) with Ok l => Some (map B2SF l) | _ => None end = Some (map B2SF p)) by (vm_compute; reflexivity).
    destruct (vec_sub_w_scale O p 1 (f64_cx 2) 1 (fzero F64)) as [w| |]; try discriminate K.
    assert (K' : map B2SF w = map B2SF p) by congruence. apply map_B2SF_inj in K'. congruence. }
  split.
  - unfold dense_div_mod. rewrite F1, F2. cbn [N.ltb N.compare Pos.compare Pos.compare_cont].
    change (usub (n_chk O) 1 1) with (Ok 0%N). cbn [bind].
    change (uadd (n_chk O) 0 1) with (Ok 1%N). cbn [bind].
    change (vec_repeat (n_max_len O) (zero O) 1) with (Ok [fzero F64]). cbn [bind].
    assert (K : div_loop O fuel (f64_cx 2) (f_of_Z F64 2) 1 1 f64_least 1 p [fzero F64] = Fuel).
    { induction fuel as [|fuel IH]; [reflexivity|]. cbn [div_loop]. change (1 <=? 1)%N with true. cbv beta iota. cbn [div float_num O bind]. rewrite D.
      fold O. rewrite V. cbn [bind]. change (usub (n_chk O) 1 1) with (Ok 0%N). cbn [bind].
      change (update [fzero F64] 0 (fun _ => Ok (fzero F64))) with (Ok [fzero F64]). cbn [bind]. rewrite F1. exact IH. }
    rewrite K. reflexivity.
  - unfold dense_rem_assign. rewrite F1, F2. change (1 <? 1)%N with false. cbv beta iota. cbn [div float_num O bind]. rewrite D. fold O.
    induction fuel as [|fuel IH]; [reflexivity|]. cbn [rem_assign_loop]. change (1 <=? 1)%N with true. cbv beta iota. rewrite V. cbn [bind]. rewrite F1.
    cbn [div float_num O bind]. rewrite D. exact IH.
Qed.

(** (x^2 + 3x + 2) / (x/2 + 1): quotient 2x + 2, remainder 0. *)
Example C55_half_power_case : forall powi,
  match dense_div_mod (float_num true F64 powi) 3 (map (f_of_Z F64) [1; 3; 2]) [fdiv (f_of_Z F64 1) (f_of_Z F64 2); f_of_Z F64 1] with
  | Ok (q, r) => map B2SF q = map B2SF (map (f_of_Z F64) [2; 2]) /\ r = []
  | _ => False
  end.
Proof. intros powi. vm_compute. split; reflexivity. Qed.

Print Assumptions C55_half_power_partial.
Print Assumptions C55_underflow_refuted.
