(** Deflation and the root-finding loop over f32 and f64. *)

From Coq Require Import List NArith ZArith Reals Lia Lra Bool Arith.
From Coq Require Import ZifyBool ZifyNat ZifyN.
From Flocq Require Import Core BinarySingleNaN.
From Verif Require Import Base Num Terms Laws Dense DenseFacts DenseDiv Floats FloatFacts FloatDiv Roots RootLoop.
Import ListNotations.

Section FloatRoots.
Context (f : fty) (powi : flt f -> N -> flt f) (chk : bool).
Notation O := (float_num chk f powi).
Notation f1 := (f_of_Z f 1).
Notation F := (flt f).

Lemma one_B2R : is_finite f1 = true /\ B2R f1 = 1%R.
Proof. destruct (f_of_Z_small f 1) as [A B]; [destruct f; vm_compute; congruence|]. split; [exact B|exact A]. Qed.

Lemma fzero_finite (c : F) : is_zero O c = true -> is_finite c = true.
Proof. cbn [is_zero float_num]. destruct c as [s|s| |s m e H]; intros E; try reflexivity; try destruct s; discriminate E. Qed.

Lemma fdiv1_finite (c : F) : is_finite c = true -> is_zero O c = false -> fdiv c f1 = c.
Proof.
  intros Hc Zc. destruct one_B2R as [F1 E1]. destruct (fdiv_one f c f1 Hc E1) as [Fd Ed].
  assert (N : B2R c <> 0%R). { intros K. apply (fis_zero f powi chk c Hc) in K. congruence. }
  apply B2R_inj; [| |exact Ed].
  - destruct (fdiv c f1) as [s|s| |s m e H]; try reflexivity; try discriminate Fd. exfalso. apply N. rewrite <- Ed. reflexivity.
  - destruct c as [s|s| |s m e H]; try reflexivity; try discriminate Hc. exfalso. apply N. reflexivity.
Qed.

Lemma fdiv1_nonzero (c : F) : is_zero O c = false -> is_zero O (fdiv c f1) = false.
Proof.
  intros Zc. destruct (is_finite c) eqn:Fc; [rewrite fdiv1_finite; assumption|].
  destruct c as [s|s| |s m e H]; try discriminate Fc; destruct f; try destruct s; vm_compute; reflexivity.
Qed.

Lemma fdiv_self_nonzero (c : F) : is_zero O c = false -> is_zero O (fdiv c c) = false.
Proof.
  intros Zc. destruct (is_finite c) eqn:Fc.
  - assert (N : B2R c <> 0%R). { intros K. apply (fis_zero f powi chk c Fc) in K. congruence. }
    pose proof (Bdiv_correct (fprec f) (femax f) _ _ mode_NE c c N) as K.
    replace (B2R c / B2R c)%R with (B2R f1) in K by (rewrite (proj2 one_B2R); field; exact N).
    rewrite rnd_B2R, lt_emax in K. destruct K as (K1 & K2 & _). destruct (is_zero O (fdiv c c)) eqn:E; [|reflexivity].
    apply fis_zero in E; [|rewrite <- Fc; exact K2]. unfold fdiv in E. rewrite K1, (proj2 one_B2R) in E. lra.
  - destruct c as [s|s| |s m e H]; try discriminate Fc; destruct f; try destruct s; vm_compute; reflexivity.
Qed.

(** What subtracting the leading term from itself leaves. *)
Definition cancelled (c : F) : F := fsub c (fmul f1 (fdiv c f1)).

Lemma cancelled_finite (c : F) : is_finite c = true -> is_zero O (cancelled c) = true.
Proof.
  intros Fc. destruct one_B2R as [F1 E1]. destruct (fdiv_one f c f1 Fc E1) as [Fd Ed].
  destruct (fmul_one f f1 (fdiv c f1) F1 Fd E1) as [Fm Em].
  destruct (fsub_same f c (fmul f1 (fdiv c f1)) Fc Fm) as [Fz Ez]; [rewrite Em, Ed; reflexivity|].
  apply fis_zero; assumption.
Qed.
Lemma cancelled_stuck (c : F) : is_finite c = false -> cancelled c = B754_nan.
Proof. intros Fc. unfold cancelled. destruct c as [s|s| |s m e H]; try discriminate Fc; destruct f; try destruct s; vm_compute; reflexivity. Qed.

Lemma small (l : list F) : vec_ok O l -> (len l <= USIZE_MAX)%N.
Proof. unfold vec_ok. intros H. etransitivity; [exact H|]. destruct f; vm_compute; discriminate. Qed.

(** One round of the deflation loop. *)
Lemma fdefl_round k (root : F) offset (pl : list F) (c y : F) (q dv : list F) : all_zero O pl -> is_zero O c = false -> vec_ok O (pl ++ c :: y :: q) ->
  (N.of_nat (S (length q)) <= offset)%N -> length dv = N.to_nat offset ->
  exists a x b, dv = a ++ x :: b /\ length a = (N.to_nat offset - S (length q))%nat /\
    defl_loop O (S k) root offset c (N.of_nat (S (length q))) (pl ++ c :: y :: q) dv =
    match first_term O (pl ++ cancelled c :: fadd y (fmul root (fdiv c f1)) :: q) with
    | ZeroTerm => Ok (a ++ fdiv c f1 :: b)
    | TTerm c' d => defl_loop O k root offset c' d (pl ++ cancelled c :: fadd y (fmul root (fdiv c f1)) :: q) (a ++ fdiv c f1 :: b)
    end.
Proof.
  intros Al Zc Hv Ho Hl.
  assert (S1 : exists a x b, dv = a ++ x :: b /\ length a = (N.to_nat offset - S (length q))%nat).
  { destruct (nth_error dv (N.to_nat offset - S (length q))) as [x|] eqn:E.
    - apply nth_error_split in E. destruct E as (a & b & -> & La). exists a, x, b. auto.
    - apply nth_error_None in E. lia. }
  destruct S1 as (a & x & b & -> & La). exists a, x, b. split; [reflexivity|]. split; [exact La|].
  cbn [defl_loop]. destruct (N.leb_spec 1 (N.of_nat (S (length q)))) as [_|]; [|lia].
  cbn [div float_num bind one].
  assert (Ll : len (pl ++ c :: y :: q) = (N.of_nat (length pl) + N.of_nat (S (length q)) + 1)%N).
  { unfold len in *. rewrite app_length. cbn [length] in *. lia. }
  pose proof (small _ Hv) as Hsm. rewrite Ll in *.
  rewrite usub_le by lia. cbn [bind]. rewrite usub_le by lia. cbn [bind].
  replace (N.of_nat (length pl) + N.of_nat (S (length q)) + 1 - N.of_nat (S (length q)) - 1)%N with (N.of_nat (length pl)) by lia.
  rewrite (update_at pl c (y :: q) _ (cancelled c)) by reflexivity. cbn [bind].
  rewrite uadd_small by lia. cbn [bind].
  replace (N.of_nat (length pl) + 1)%N with (N.of_nat (length (pl ++ [cancelled c]))) by (rewrite app_length; simpl; lia).
  replace (pl ++ cancelled c :: y :: q) with ((pl ++ [cancelled c]) ++ y :: q) by (rewrite <- app_assoc; reflexivity).
  rewrite (update_at (pl ++ [cancelled c]) y q _ (fadd y (fmul root (fdiv c f1)))) by reflexivity. cbn [bind].
  rewrite usub_le by lia. cbn [bind].
  replace (offset - N.of_nat (S (length q)))%N with (N.of_nat (length a)) by lia.
  rewrite (update_at a x b _ (fdiv c f1)) by reflexivity. cbn [bind]. rewrite <- app_assoc. reflexivity.
Qed.

(** A leading coefficient that is not finite is never removed. *)
Lemma fdefl_stuck (root : F) offset k : forall (pl : list F) (c y : F) (q dv : list F), all_zero O pl -> is_finite c = false -> vec_ok O (pl ++ c :: y :: q) ->
  (N.of_nat (S (length q)) <= offset)%N -> length dv = N.to_nat offset ->
  defl_loop O k root offset c (N.of_nat (S (length q))) (pl ++ c :: y :: q) dv = Fuel.
Proof.
  induction k as [|k IH]; intros pl c y q dv Al Fc Hv Ho Hl; [reflexivity|].
  assert (Zc : is_zero O c = false) by (destruct (is_zero O c) eqn:E; [apply fzero_finite in E; congruence|reflexivity]).
  destruct (fdefl_round k root offset pl c y q dv Al Zc Hv Ho Hl) as (a & x & b & -> & La & ->).
  rewrite (cancelled_stuck c Fc).
  rewrite (first_term_app O pl B754_nan) by (assumption || reflexivity).
  change (len (fadd y (fmul root (fdiv c f1)) :: q)) with (N.of_nat (S (length q))).
  apply IH; auto; try reflexivity.
  - unfold vec_ok, len in *. rewrite app_length in *. exact Hv.
  - rewrite app_length in *. exact Hl.
Qed.

(** Synthetic division: every leading coefficient it meets above degree 0 is finite. *)
Fixpoint synth_finite (root c : F) (q : list F) : Prop :=
  match q with
  | [] => True
  | y :: q' => is_finite c = true /\ synth_finite root (if is_zero O c then y else fadd y (fmul root c)) q'
  end.

Definition defl_run (k : nat) (root : F) (offset : N) (l dv : list F) : res (list F) :=
  match first_term O l with ZeroTerm => Ok dv | TTerm c d => defl_loop O k root offset c d l dv end.

Lemma defl_run_spec (root : F) offset (q : list F) : forall k (pl : list F) (c : F) (dv : list F), all_zero O pl -> vec_ok O (pl ++ c :: q) -> (N.of_nat (length q) <= offset)%N ->
  length dv = N.to_nat offset -> (length q < k)%nat ->
  (synth_finite root c q /\ exists dv', defl_run k root offset (pl ++ c :: q) dv = Ok dv' /\ length dv' = length dv /\
     (forall i, (i < N.to_nat offset - length q)%nat -> nth_error dv' i = nth_error dv i)) \/
  (~ synth_finite root c q /\ forall k, defl_run k root offset (pl ++ c :: q) dv = Fuel).
Proof.
  induction q as [|y q IH]; intros k pl c dv Al Hv Ho Hl Hk.
  - left. split; [exact I|]. exists dv. split; [|split; [reflexivity|reflexivity]].
    unfold defl_run. destruct (is_zero O c) eqn:Zc.
    + rewrite (first_term_zeros f powi chk pl [c] Al). change [c] with ([c] ++ []). rewrite (first_term_zeros f powi chk [c] []); [reflexivity|]. constructor; [exact Zc|constructor].
    + rewrite (first_term_app O pl c [] Al Zc). destruct k; [lia|]. reflexivity.
  - cbn [length] in *. destruct (is_zero O c) eqn:Zc.
    + assert (Al' : all_zero O (pl ++ [c])) by (apply Forall_app; split; [exact Al|constructor; [exact Zc|constructor]]).
      replace (pl ++ c :: y :: q) with ((pl ++ [c]) ++ y :: q) in * by (rewrite <- app_assoc; reflexivity).
      cbn [synth_finite]. rewrite Zc.
      destruct (IH k (pl ++ [c]) y dv Al' Hv ltac:(lia) Hl ltac:(lia)) as [(Hs & dv' & E & Ld & Hi)|(Hs & E)].
      * left. split; [split; [apply fzero_finite, Zc|exact Hs]|]. exists dv'. split; [exact E|]. split; [exact Ld|]. intros i Hi'. apply Hi. lia.
      * right. split; [tauto|exact E].
    + destruct (is_finite c) eqn:Fc.
      * assert (Al' : all_zero O (pl ++ [cancelled c])).
        { apply Forall_app; split; [exact Al|constructor; [apply cancelled_finite, Fc|constructor]]. }
        destruct (fdefl_round 0 root offset pl c y q dv Al Zc Hv Ho Hl) as (a & x & b & Ed & La & _).
        assert (R : forall k, defl_run (S k) root offset (pl ++ c :: y :: q) dv =
          defl_run k root offset ((pl ++ [cancelled c]) ++ fadd y (fmul root c) :: q) (a ++ c :: b)).
        { intros k'. unfold defl_run at 1. rewrite (first_term_app O pl c _ Al Zc). change (len (y :: q)) with (N.of_nat (S (length q))).
          destruct (fdefl_round k' root offset pl c y q dv Al Zc Hv Ho Hl) as (a' & x' & b' & Ed' & La' & ->).
          rewrite (fdiv1_finite c Fc Zc).
          assert (a' = a /\ b' = b) as [-> ->].
          { rewrite Ed in Ed'. assert (length a = length a') by lia.
            apply app_eq_app in Ed'. destruct Ed' as (t & [(E1 & E2)|(E1 & E2)]);
              (assert (t = []) by (apply (f_equal (@length _)) in E1; rewrite app_length in E1; destruct t; [reflexivity|simpl in E1; lia]));
              subst t; rewrite app_nil_r in E1; injection E2 as _ ->; auto. }
          rewrite <- app_assoc. reflexivity. }
        cbn [synth_finite]. rewrite Zc.
        destruct k as [|k]; [lia|].
        destruct (IH k (pl ++ [cancelled c]) (fadd y (fmul root c)) (a ++ c :: b) Al') as [(Hs & dv' & E & Ld & Hi)|(Hs & E)]; try lia.
        { unfold vec_ok, len in *. rewrite !app_length in *. cbn [length] in *. lia. }
        { rewrite Ed in Hl. rewrite app_length in *. exact Hl. }
        { left. split; [split; [exact Fc|exact Hs]|]. exists dv'. rewrite R. split; [exact E|].
          rewrite Ed. rewrite Ld, !app_length. split; [reflexivity|]. intros i Hi'. rewrite Hi by lia. rewrite !nth_error_app1 by lia. reflexivity. }
        { right. split; [tauto|]. intros [|k']; [unfold defl_run; rewrite (first_term_app O pl c _ Al Zc); reflexivity|]. rewrite R. apply E. }
      * right. split; [cbn [synth_finite]; intros [K _]; congruence|]. intros k'. unfold defl_run. rewrite (first_term_app O pl c _ Al Zc).
        apply fdefl_stuck; assumption.
Qed.

(** [deflate] on a polynomial with leading coefficient c. *)
Lemma fdeflate_spec (root c : F) (q : list F) : is_zero O c = false -> (1 <= length q)%nat -> vec_ok O (c :: q) ->
  (length q = 1%nat /\ forall k, deflate O k (c :: q) root = Ok []) \/
  ((2 <= length q)%nat /\ synth_finite root c q /\
     forall k, (length q < k)%nat -> exists w, deflate O k (c :: q) root = Ok w /\ length w = length q /\ lead O w) \/
  ((2 <= length q)%nat /\ ~ synth_finite root c q /\ forall k, deflate O k (c :: q) root = Fuel).
Proof.
  intros Zc Hq Hv.
  assert (D : forall k, deflate O k (c :: q) root =
    if Nat.eqb (length q) 1 then Ok [] else defl_run k root (len q) (c :: q) (repeat (zero O) (length q))).
  { intros k. unfold deflate, defl_run. rewrite (lead_first_term O c q Zc).
    destruct (N.eqb_spec (len q) 1) as [E|E]; destruct (Nat.eqb_spec (length q) 1) as [E'|E']; unfold len in E; try lia; [reflexivity|].
    unfold vec_repeat. destruct (N.leb_spec (len q) (n_max_len O)) as [_|H].
    - cbn [bind]. unfold len. rewrite Nnat.Nat2N.id. reflexivity.
    - unfold vec_ok, len in *. cbn [length] in Hv. lia. }
  destruct (Nat.eq_dec (length q) 1) as [E|E].
  - left. split; [exact E|]. intros k. rewrite D, E. reflexivity.
  - right. assert (H2 : (2 <= length q)%nat) by lia.
    assert (Lr : length (repeat (zero O) (length q)) = N.to_nat (len q)) by (rewrite repeat_length; unfold len; lia).
    destruct (defl_run_spec root (len q) q (S (length q)) [] c (repeat (zero O) (length q))) as [(Hs & _)|(Hs & E1)];
      try (unfold len; lia); [constructor|exact Hv|exact Lr| |].
    + left. split; [exact H2|]. split; [exact Hs|]. intros k Hk.
      destruct (defl_run_spec root (len q) q k [] c (repeat (zero O) (length q))) as [(_ & w & E1 & L1 & _)|(Hs' & _)];
        try (unfold len; lia); [constructor|exact Hv|exact Lr| |contradiction].
      exists w. rewrite D. destruct (Nat.eqb_spec (length q) 1); [lia|]. split; [exact E1|]. rewrite repeat_length in L1. split; [exact L1|].
      (* the first round writes the head *)
      destruct q as [|y q]; [simpl in H2; lia|]. destruct k as [|k]; [lia|].
      unfold defl_run in E1. cbn [app] in E1. rewrite (lead_first_term O c (y :: q) Zc) in E1.
      change (len (y :: q)) with (N.of_nat (S (length q))) in *.
      destruct (fdefl_round k root (N.of_nat (S (length q))) [] c y q (repeat (zero O) (length (y :: q))) ltac:(constructor) Zc Hv ltac:(lia) Lr)
        as (a & x & b & Ed & La & E2).
      assert (a = []) by (destruct a; [reflexivity|simpl in La; lia]). subst a. cbn [app] in E1, E2, Ed. rewrite E2 in E1. clear E2.
      destruct Hs as [Fc Hs]. rewrite Zc in Hs. rewrite (fdiv1_finite c Fc Zc) in E1.
      destruct (defl_run_spec root (N.of_nat (S (length q))) q k [cancelled c] (fadd y (fmul root c)) (c :: b)) as [(_ & w' & E3 & L3 & H3)|(Hs' & _)].
      * constructor; [apply cancelled_finite, Fc|constructor].
      * unfold vec_ok, len in *. exact Hv.
      * lia.
      * rewrite Ed in Lr. exact Lr.
      * cbn [length] in Hk. lia.
      * assert (Ew : w' = w) by (unfold defl_run in E3; cbn [app] in E3; rewrite E3 in E1; injection E1; auto). subst w'.
        specialize (H3 0%nat ltac:(lia)). destruct w as [|h w]; [discriminate H3|]. injection H3 as ->.
        exists c, w. split; [reflexivity|]. split; [exact Zc|]. cbn [length] in *. lia.
      * contradiction.
    + right. split; [exact H2|]. split; [exact Hs|]. intros k. rewrite D. destruct (Nat.eqb_spec (length q) 1); [lia|]. apply E1.
Qed.

Lemma fadd_bound i (x y : F) : (0 <= i)%Z -> (i + 1 < femax f)%Z -> fbound f i x -> fbound f i y -> fbound f (i + 1) (fadd x y).
Proof.
  intros Hi Hm [Fx Bx] [Fy By].
  assert (B : (Rabs (B2R x + B2R y) <= bpow radix2 (i + 1))%R).
  { rewrite bpow_plus. change (bpow radix2 1) with 2%R. pose proof (Rabs_triang (B2R x) (B2R y)) as Ht. lra. }
  pose proof (Bplus_correct (fprec f) (femax f) _ _ mode_NE x y Fx Fy) as K.
  rewrite (rnd_lt f (i + 1)) in K by (lia || exact B). destruct K as (K1 & K2 & _).
  split; unfold fadd; [exact K2|]. rewrite K1. apply rnd_bound; [lia|exact B].
Qed.

(** Bounded coefficients and root: nothing overflows. *)
Lemma synth_bounded j (root : F) (q : list F) : (0 <= j)%Z -> fbound f j root -> forall i (c : F), (0 <= i)%Z -> fbound f i c -> Forall (fbound f i) q ->
  (i + Z.of_nat (length q) * (j + 1) < femax f)%Z -> synth_finite root c q.
Proof.
  intros Hj Hr. induction q as [|y q IH]; intros i c Hi Hc Hq Hm; cbn [synth_finite]; [exact I|]. split; [apply Hc|].
  inversion_clear Hq as [|? ? Hy Hq']. cbn [length] in Hm.
  assert (Hm' : (i + j + 1 + Z.of_nat (length q) * (j + 1) < femax f)%Z) by lia.
  assert (Hp : (0 <= Z.of_nat (length q) * (j + 1))%Z) by (apply Z.mul_nonneg_nonneg; lia).
  apply (IH (i + j + 1)%Z); [lia| | |lia].
  - destruct (is_zero O c); [apply (fbound_le f i); [lia|exact Hy]|].
    assert (B : fbound f (i + j) (fmul root c)) by (replace (i + j)%Z with (j + i)%Z by lia; apply fmul_bound; try assumption; lia).
    assert (By : fbound f (i + j) y) by (apply (fbound_le f i); [lia|exact Hy]).
    destruct By as [Fy By]. destruct B as [Fm Bm].
    apply fadd_bound; [lia|lia|split; assumption|split; assumption].
  - eapply Forall_impl; [|exact Hq']. intros z. apply fbound_le. lia.
Qed.

(** ** The loop *)
Context (S : rops F) (solver : nat -> list F -> list F) (eval : F -> res F) (n : nat).
Context (Heval : forall x, exists v, eval x = Ok v).

Definition good (v : list F) : Prop := v = [] \/ (lead O v /\ vec_ok O v).
Definition hangs (bound : nat) : Prop := exists v root, (length v <= bound)%nat /\ lead O v /\ vec_ok O v /\ forall k, deflate O k v root = Fuel.

Lemma ftake_ok dfuel nv rts root : good nv -> (length nv <= dfuel)%nat ->
  (exists nv' root', take_root O S dfuel eval (nv, rts) root = Ok (nv', rts ++ [root']) /\ good nv' /\ (nv = [] -> nv' = []) /\
    (nv' <> [] -> Datatypes.S (length nv') = length nv)) \/
  (take_root O S dfuel eval (nv, rts) root = Fuel /\ hangs (length nv)).
Proof.
  intros Hg Hd. unfold take_root. destruct (Heval (round S root)) as (ex & ->). destruct (Heval root) as (er & ->). cbn [bind absv float_num].
  set (r := if lt S (Babs ex) (Babs er) then _ else _). cbn [fst snd].
  destruct Hg as [->|((c & q & -> & Zc & Hq) & Hv)].
  - left. exists [], r. unfold deflate. split; [reflexivity|]. split; [left; reflexivity|]. split; [reflexivity|]. congruence.
  - destruct (fdeflate_spec r c q Zc Hq Hv) as [(L & E)|[(L & Hs & E)|(L & Hs & E)]].
    + left. exists [], r. rewrite E. split; [reflexivity|]. split; [left; reflexivity|]. split; [reflexivity|]. congruence.
    + destruct (E dfuel) as (w & Ew & Lw & Dw); [simpl in Hd; lia|]. rewrite Ew. left. exists w, r. split; [reflexivity|].
      split; [right; split; [exact Dw|]|]; [|split; [discriminate|intros _; simpl; lia]].
      unfold vec_ok, len in *. rewrite Lw. cbn [length] in Hv. lia.
    + right. rewrite E. split; [reflexivity|]. exists (c :: q), r. split; [lia|]. split; [exists c, q; auto|]. split; [exact Hv|exact E].
Qed.

Lemma hangs_le a b : (a <= b)%nat -> hangs a -> hangs b.
Proof. intros H (v & r & Hl & K). exists v, r. split; [lia|exact K]. Qed.

Lemma ffold_ok dfuel l : forall nv rts, good nv -> (length nv <= dfuel)%nat ->
  (exists nv' rts', foldM (take_root O S dfuel eval) (nv, rts) l = Ok (nv', rts') /\ good nv' /\
     (length nv' <= length nv)%nat /\ (nv' <> [] -> l <> [] -> (length nv' < length nv)%nat)) \/
  (foldM (take_root O S dfuel eval) (nv, rts) l = Fuel /\ hangs (length nv)).
Proof.
  induction l as [|r l IH]; intros nv rts Hg Hd; cbn [foldM].
  - left. exists nv, rts. split; [reflexivity|]. split; [exact Hg|]. split; [lia|]. congruence.
  - destruct (ftake_ok dfuel nv rts r Hg Hd) as [(nv1 & r1 & E & G1 & Z1 & L1)|(E & H)].
    + rewrite E. cbn [bind].
      assert (Le : (length nv1 <= length nv)%nat).
      { destruct nv1 as [|x nv1]; [simpl; lia|]. specialize (L1 ltac:(discriminate)). lia. }
      destruct (IH nv1 (rts ++ [r1]) G1 ltac:(lia)) as [(nv2 & rts2 & E2 & G2 & L2 & S2)|(E2 & H)].
      * left. exists nv2, rts2. split; [exact E2|]. split; [exact G2|]. split; [lia|]. intros N2 _.
        assert (nv1 <> []). { intros ->. apply N2. destruct nv2; [reflexivity|simpl in L2; lia]. }
        specialize (L1 H). lia.
      * right. split; [exact E2|]. apply (hangs_le (length nv1)); assumption.
    + right. rewrite E. split; [reflexivity|exact H].
Qed.

Lemma fmapM_ok (b : F) (l : list F) : exists w, mapM (fun v => div O v b) l = Ok w /\ w = map (fun v => fdiv v b) l.
Proof.
  induction l as [|x l (w & E & ->)]; cbn [mapM map]; [eauto|]. cbn [div float_num bind] in *. rewrite E. cbn [bind]. eauto.
Qed.

Lemma fnormalize_ok (c : F) (q : list F) : is_zero O c = false -> normalize O (c :: q) = Ok (map (fun v => fdiv v c) (c :: q)).
Proof.
  intros Zc. unfold normalize.
  assert (first_nonzero_index O (c :: q) = 0%nat) as ->.
  { rewrite first_nonzero_index_fnz. unfold fnz. rewrite Zc. reflexivity. }
  cbn [Nat.eqb length]. change (index (c :: q) (N.of_nat 0)) with (Ok c). cbn [bind].
  change (slice_from (c :: q) 0) with (Ok (c :: q)). cbn [bind].
  destruct (fmapM_ok c (c :: q)) as (w & E & ->). rewrite E. reflexivity.
Qed.

Lemma floop_ok dfuel fuel : forall pass values nv rts, values <> [] -> good nv -> (length nv <= dfuel)%nat -> (length nv < fuel)%nat ->
  (exists rs, find_loop O S solver dfuel (Num (N.of_nat n)) eval fuel pass values nv rts = Ok rs) \/
  (find_loop O S solver dfuel (Num (N.of_nat n)) eval fuel pass values nv rts = Fuel /\ hangs (length nv)).
Proof.
  induction fuel as [|fuel IH]; intros pass values nv rts Hvs Hg Hd Hf; [lia|]. cbn [find_loop].
  destruct values as [|v0 tl]; [congruence|]. change (slice_from (v0 :: tl) 1) with (Ok tl). cbn [bind].
  destruct (solver pass tl) as [|t ts] eqn:Es.
  { left. destruct (_ =? _)%N; [eexists; reflexivity|]. destruct rts; eexists; reflexivity. }
  destruct (ffold_ok dfuel (t :: ts) nv rts Hg Hd) as [(nv' & rts' & E & G & L & Lt)|(E & H)].
  - rewrite E. cbn [bind].
    destruct G as [->|((c & q & -> & Zc & Hq) & Hv)]; [left; destruct rts'; eexists; reflexivity|].
    rewrite (fnormalize_ok c q Zc). cbn [bind map].
    change (index (fdiv c c :: map (fun v => fdiv v c) q) 0) with (Ok (fdiv c c)). cbn [bind].
    destruct (fmapM_ok (fdiv c c) (fdiv c c :: map (fun v => fdiv v c) q)) as (w & Ew & Hw). rewrite Ew. cbn [bind].
    specialize (Lt ltac:(discriminate) ltac:(discriminate)).
    assert (Ll : length (fdiv c c :: map (fun v => fdiv v c) q) = length (c :: q)) by (cbn [length]; rewrite map_length; reflexivity).
    destruct (IH (Datatypes.S pass) w (fdiv c c :: map (fun v => fdiv v c) q) rts') as [H|[E2 H]].
    + rewrite Hw. discriminate.
    + right. split.
      * exists (fdiv c c), (map (fun v => fdiv v c) q). split; [reflexivity|]. split; [apply fdiv_self_nonzero, Zc|]. rewrite map_length. exact Hq.
      * unfold vec_ok, len in *. rewrite Ll. exact Hv.
    + rewrite Ll. lia.
    + rewrite Ll. lia.
    + left. exact H.
    + right. split; [exact E2|]. eapply hangs_le; [|exact H]. rewrite Ll. lia.
  - right. rewrite E. split; [reflexivity|exact H].
Qed.
End FloatRoots.
