(** Property C55: division of floating-point polynomials. *)

From Coq Require Import List NArith ZArith Reals Lia Lra Bool Arith.
From Coq Require Import ZifyBool ZifyNat ZifyN.
From Flocq Require Import Core BinarySingleNaN.
From Verif Require Import Base Num Laws Terms Dense DenseFacts DenseDiv Floats FloatFacts FloatDiv.
Import ListNotations.
Local Open Scope Z_scope.

(** The coefficients [c x]: one times x, as f64. *)
Definition f64_cx (c : Z) : list (flt F64) := [f_of_Z F64 c; f_of_Z F64 0].

Definition view (s : option (list (flt F64) * list (flt F64))) : option (list SpecFloat.spec_float * list SpecFloat.spec_float) :=
  option_map (fun p => (map B2SF (fst p), map B2SF (snd p))) s.

Lemma map_B2SF_inj (l m : list (flt F64)) : map B2SF l = map B2SF m -> l = m.
Proof.
  revert m. induction l as [|x l IH]; intros [|y m] H; simpl in H; try discriminate; [reflexivity|].
  injection H as H1 H2. f_equal; [apply B2SF_inj, H1|apply IH, H2].
Qed.
Lemma view_inj s t : view s = view t -> s = t.
Proof.
  destruct s as [[a b]|], t as [[c d]|]; simpl; intros H; try discriminate; [|reflexivity].
  injection H as H1 H2. f_equal. f_equal; apply map_B2SF_inj; assumption.
Qed.
Lemma div_rounds_S {T} (O : num T) rhs b m o k s :
  div_rounds O rhs b m o (S k) s = match div_rounds O rhs b m o k s with Some s' => div_round O rhs b m o s' | None => None end.
Proof.
  revert s. induction k as [|k IH]; intros s.
  - simpl. destruct (div_round O rhs b m o s); reflexivity.
  - cbn [div_rounds] in *. destruct (div_round O rhs b m o s) as [s1|]; [apply IH|reflexivity].
Qed.

(** Dividing 1.0x by 49.0x never returns. *)
Theorem C55_nontermination_refuted : exists p d : list (flt F64),
  Forall (fun x : flt F64 => is_finite x = true) p /\ Forall (fun x : flt F64 => is_finite x = true) d /\
  map (@B2R _ _) p = [1%R; 0%R] /\ map (@B2R _ _) d = [49%R; 0%R] /\
  forall chk powi fuel, dense_div_mod (float_num chk F64 powi) fuel p d = Fuel.
Proof.
  exists (f64_cx 1), (f64_cx 49).
  destruct (f_of_Z_small F64 1) as [B1 A1]; [vm_compute; discriminate|].
  destruct (f_of_Z_small F64 0) as [B0 A0]; [vm_compute; discriminate|].
  destruct (f_of_Z_small F64 49) as [B2 A2]; [vm_compute; discriminate|].
  split; [repeat constructor; assumption|]. split; [repeat constructor; assumption|].
  split; [unfold f64_cx; cbn [map]; rewrite B1, B0; reflexivity|].
  split; [unfold f64_cx; cbn [map]; rewrite B2, B0; reflexivity|].
  intros chk powi fuel. set (O := float_num chk F64 powi).
  set (s0 := (f64_cx 1, [fzero F64])).
  set (R := div_rounds O (f64_cx 49) (f_of_Z F64 49) 1 1).
  assert (E : view (R 23%nat s0) = view (R 22%nat s0)) by (vm_compute; reflexivity).
  assert (E' : exists x, view (R 22%nat s0) = Some x) by (vm_compute; eauto).
  apply view_inj in E. destruct E' as [x Ex]. unfold R in *.
  rewrite div_rounds_S in E. destruct (div_rounds O (f64_cx 49) (f_of_Z F64 49) 1 1 22 s0) as [s|] eqn:Es; [|discriminate Ex].
  assert (F1 : first_term O (f64_cx 1) = TTerm (f_of_Z F64 1) 1) by reflexivity.
  assert (F2 : first_term O (f64_cx 49) = TTerm (f_of_Z F64 49) 1) by reflexivity.
  pose proof (div_from_mono_fuel O _ _ _ _ 22 s0 s Es (div_from_stuck O _ _ _ _ s E) fuel) as K.
  unfold div_from, s0 in K. cbn [fst snd] in K. rewrite F1 in K.
  unfold dense_div_mod. rewrite F1, F2. cbn [N.ltb N.compare Pos.compare Pos.compare_cont].
  assert (U : (n1 <- usub (n_chk O) 1 1 ;; n <- uadd (n_chk O) n1 1 ;; vec_repeat (n_max_len O) (zero O) n) = Ok [fzero F64])
    by reflexivity.
  cbn [bind] in *. change (usub (n_chk O) 1 1) with (Ok 0%N). cbn [bind].
  change (uadd (n_chk O) 0 1) with (Ok 1%N). cbn [bind].
  change (vec_repeat (n_max_len O) (zero O) 1) with (Ok [fzero F64]). cbn [bind]. rewrite K. reflexivity.
Qed.

(** Dividing 3.0x by 47.0x returns a quotient below 1e-16 and remainder zero: a later round
    overwrites the quotient. *)
Theorem C55_quotient_overwritten_refuted : exists (p d : list (flt F64)) (c : flt F64),
  map (@B2R _ _) p = [3%R; 0%R] /\ map (@B2R _ _) d = [47%R; 0%R] /\
  is_finite c = true /\ (0 < B2R c < / 10 ^ 16)%R /\
  forall chk powi fuel, (2 <= fuel)%nat -> dense_div_mod (float_num chk F64 powi) fuel p d = Ok ([c], []).
Proof.
  assert (E : exists (c : flt F64), B2SF c = SpecFloat.S754_finite false 6132561194717271 (-109)).
  { eexists (SF2B (SpecFloat.S754_finite false 6132561194717271 (-109)) _). apply B2SF_SF2B. Unshelve. vm_compute. reflexivity. }
  destruct E as [c Ec]. exists (f64_cx 3), (f64_cx 47), c.
  destruct (f_of_Z_small F64 3) as [B1 A1]; [vm_compute; discriminate|].
  destruct (f_of_Z_small F64 0) as [B0 A0]; [vm_compute; discriminate|].
  destruct (f_of_Z_small F64 47) as [B2 A2]; [vm_compute; discriminate|].
  split; [unfold f64_cx; cbn [map]; rewrite B1, B0; reflexivity|].
  split; [unfold f64_cx; cbn [map]; rewrite B2, B0; reflexivity|].
  destruct c as [s|s| |s m e Hb]; simpl in Ec; try discriminate. injection Ec as Es Em Ee. 
  split; [reflexivity|]. split.
  - subst s m e. unfold B2R, F2R. simpl Fnum. simpl Fexp. simpl cond_Zopp.
    split; [apply Rmult_lt_0_compat; [lra|apply bpow_gt_0]|].
    change (bpow radix2 (-109)) with (/ IZR (Z.pow_pos 2 109))%R.
    replace (Z.pow_pos 2 109) with 649037107316853453566312041152512 by (vm_compute; reflexivity). lra.
  - intros chk powi fuel Hf. set (cc := B754_finite s m e Hb : flt F64).
    assert (Ec : B2SF cc = SpecFloat.S754_finite false 6132561194717271 (-109)) by (simpl; congruence).
    clearbody cc. clear Es Em Ee Hb s m e.
    set (O := float_num chk F64 powi).
    assert (K : forall g, div_loop O (S (S g)) (f64_cx 47) (f_of_Z F64 47) 1 1 (f_of_Z F64 3) 1 (f64_cx 3) [fzero F64] = Ok ([cc], [fzero F64; fzero F64])).
    { intros g.
      set (V := fun r : res (list (flt F64) * list (flt F64)) => match r with Ok (a, b) => Some (map B2SF a, map B2SF b) | _ => None end).
      assert (VI : forall r a b, V r = V (Ok (a, b)) -> r = Ok (a, b)).
      { intros r a b. unfold V. destruct r as [[x y]| |]; try discriminate. intros H. injection H as H1 H2.
        apply map_B2SF_inj in H1, H2. congruence. }
      apply VI. cbn [V map]. rewrite Ec. vm_compute. reflexivity. }
    destruct fuel as [|[|fuel]]; try lia.
    assert (F1 : first_term O (f64_cx 3) = TTerm (f_of_Z F64 3) 1) by reflexivity.
    assert (F2 : first_term O (f64_cx 47) = TTerm (f_of_Z F64 47) 1) by reflexivity.
    unfold dense_div_mod. rewrite F1, F2. cbn [N.ltb N.compare Pos.compare Pos.compare_cont].
    change (usub (n_chk O) 1 1) with (Ok 0%N). cbn [bind].
    change (uadd (n_chk O) 0 1) with (Ok 1%N). cbn [bind].
    change (vec_repeat (n_max_len O) (zero O) 1) with (Ok [fzero F64]). cbn [bind]. rewrite K. cbn [bind].
    rewrite !dense_new_ok. cbn [bind].
    assert (Z : is_zero O cc = false).
    { destruct cc as [s|s| |s m e Hb]; try discriminate Ec.
      simpl in Ec. injection Ec as -> _ _. reflexivity. }
    unfold strip. cbn [fnz]. rewrite Z. reflexivity.
Qed.

(** What holds: with a monic divisor (leading coefficient 1.0) and magnitudes bounded so that
    nothing overflows, [div_mod] returns after at most one round per degree, with finite
    results and a remainder of smaller degree.  Missing from the full statement: other
    divisors, for which it is false. *)
Theorem C55_monic_partial : forall f chk powi (p d : list (flt f)) a b m c n fuel,
  let O := float_num chk f powi in
  0 <= a -> 0 <= b -> vec_ok O p ->
  Forall (fun x : flt f => is_finite x = true /\ (Rabs (B2R x) <= bpow radix2 b)%R) p ->
  Forall (fun x : flt f => is_finite x = true /\ (Rabs (B2R x) <= bpow radix2 a)%R) d ->
  (exists l, first_term O d = TTerm l m /\ B2R l = 1%R) ->
  first_term O p = TTerm c n ->
  b + (Z.of_N n - Z.of_N m + 1) * (a + 1) < femax f ->
  (N.to_nat n + 2 <= fuel)%nat ->
  exists q r, dense_div_mod O fuel p d = Ok (q, r) /\
    Forall (fun x : flt f => is_finite x = true) q /\ Forall (fun x : flt f => is_finite x = true) r /\
    match first_term O r with ZeroTerm => True | TTerm _ k => (k < m)%N end.
Proof.
  intros f chk powi p d a b m c n fuel O Ha Hb Hv Bp Bd (l & Hd & Hl) Hp Hm Hfu.
  assert (Fp : Forall (fun x : flt f => is_finite x = true) p) by (eapply Forall_impl; [|exact Bp]; intros x Hx; apply Hx).
  unfold dense_div_mod. rewrite Hd, Hp. destruct (N.ltb_spec n m) as [Hnm|Hnm].
  - exists [], p. rewrite Hp. split; [reflexivity|]. split; [constructor|]. split; [exact Fp|exact Hnm].
  - destruct (first_term_TTerm O p c n Hp) as (q0 & Sp & Lp & _).
    destruct (strip_split O p) as (pre & Ep & _). rewrite Sp in Ep. apply (f_equal (@length _)) in Ep.
    rewrite app_length in Ep. simpl in Ep. unfold vec_ok, len in *.
    assert (Hcap : (n_max_len O <= 2 ^ 63)%N) by (destruct f; vm_compute; discriminate).
    assert (Hn : (n < n_max_len O)%N) by lia.
    rewrite usub_le by lia. cbn [bind]. rewrite uadd_small by (unfold USIZE_MAX; lia). cbn [bind].
    unfold vec_repeat. destruct (N.leb_spec (n - m + 1) (n_max_len O)); [|lia]. cbn [bind].
    destruct (first_term_TTerm O d l m Hd) as (qd & Sd & Ld & _).
    assert (Fl : is_finite l = true).
    { destruct (strip_split O d) as (pd & Ed & _). rewrite Sd in Ed. rewrite Ed in Bd.
      apply Forall_app in Bd. destruct Bd as [_ Bd]. inversion Bd; subst. apply H2. }
    destruct (monic_loop f powi chk d l m a n Hd Hl Fl Bd Ha Hnm fuel p c n (repeat (zero O) (N.to_nat (n - m + 1))) b Hp Bp Hb)
      as (dv' & rem' & G0 & G1 & G2 & G3); try lia.
    + rewrite repeat_length. lia.
    + clear. generalize (N.to_nat (n - m + 1)) as k. intros k. induction k; simpl; constructor; auto.
    + match goal with |- context[bind ?X _] => change X with (div_loop O fuel d l m n c n p (@repeat (flt f) (zero O) (N.to_nat (n - m + 1)))) end.
      fold O in G0. rewrite G0.
      cbn [bind]. rewrite !dense_new_ok. cbn [bind]. exists (strip O dv'), (strip O rem').
      split; [reflexivity|]. split; [apply Forall_skipn, G1|]. split; [apply Forall_skipn, G2|].
      assert (first_term O (strip O rem') = first_term O rem') as ->; [|exact G3].
      rewrite !first_term_strip.
      assert (strip O (strip O rem') = strip O rem') as ->; [|reflexivity].
      destruct (strip_split O rem') as (_ & _ & _ & _ & Hs). destruct (strip O rem') as [|y ys] eqn:Es; [reflexivity|].
      unfold strip. cbn [fnz]. rewrite Hs. reflexivity.
Qed.

(** x^2 + 3x + 2 divided by x + 1: the hypotheses are met and the call returns x + 2, 0. *)
Example C55_monic_case : forall powi,
  match dense_div_mod (float_num true F64 powi) 4 (map (f_of_Z F64) [1; 3; 2]) (map (f_of_Z F64) [1; 1]) with
  | Ok (q, r) => map B2SF q = map B2SF (map (f_of_Z F64) [1; 2]) /\ r = []
  | _ => False
  end.
Proof. intros powi. vm_compute. split; reflexivity. Qed.

Print Assumptions C55_nontermination_refuted.
Print Assumptions C55_quotient_overwritten_refuted.
Print Assumptions C55_monic_partial.
