(** Rounding error of the product of sparse float polynomials. *)

From Coq Require Import List NArith ZArith Reals Lia Lra Bool Arith Sorted FinFun.
From Coq Require Import ZifyBool ZifyNat ZifyN.
From Flocq Require Import Core BinarySingleNaN.
From Verif Require Import Base Num Spec SpecFacts Laws Sparse SparseFacts SparseArith.
From Verif Require Import RealNum Floats FloatFacts FloatErr FloatEval FloatMul FloatCoef.
Import ListNotations.
Local Open Scope R_scope.

Section Mul.
Context (chk : bool) (f : fty) (powi : flt f -> N -> flt f).
Notation O := (float_num chk f powi).
Notation u := (uro f).
Notation B := (@B2R (fprec f) (femax f)).
Notation keys := (map (@fst N (flt f))).
Notation get := (sget f).
Implicit Types a b m r terms lhs rhs : bmap (flt f).

(** The polynomial [g] of the coefficients. *)
Definition gpoly (g : flt f -> R) m : poly R_ring := fun d => g (get m (N.of_nat d)).

Lemma gpoly_cons g kr v m : g (fzero f) = 0 -> ~ In kr (keys m) ->
  peq (gpoly g ((kr, v) :: m)) (padd (@pmono R_ring (g v) (N.to_nat kr)) (gpoly g m)).
Proof.
  intros G0 Hi d. unfold gpoly, padd, pmono, sget. cbn [m_get]. apply m_get_notin in Hi.
  destruct (N.eqb_spec (N.of_nat d) kr) as [E|E].
  - rewrite E, Hi, G0. replace (Nat.eqb d (N.to_nat kr)) with true by lia. cbn. lra.
  - replace (Nat.eqb d (N.to_nat kr)) with false by lia. cbn. lra.
Qed.

Lemma gpoly_nil_mul g q d : g (fzero f) = 0 -> @pmul R_ring (gpoly g []) q d = 0.
Proof. intros G0. apply (@pmul_zero_l R_ring). intros i. exact G0. Qed.

Lemma gpoly_cons_mul g kr v m q d : g (fzero f) = 0 -> ~ In kr (keys m) ->
  @pmul R_ring (gpoly g ((kr, v) :: m)) q d = (if (d <? N.to_nat kr)%nat then 0 else g v * q (d - N.to_nat kr)%nat) + @pmul R_ring (gpoly g m) q d.
Proof.
  intros G0 Hi. rewrite (@pmul_ext R_ring _ _ _ _ (gpoly_cons g kr v m G0 Hi) (peq_refl q) d).
  rewrite (@pmul_padd_l R_ring). unfold padd. rewrite (@pmul_pmono_l R_ring). reflexivity.
Qed.

(** One row. *)
Lemma map_mul_row_get kr v terms lhs : swf lhs -> (forall kv, In kv lhs -> (kr + fst kv <= USIZE_MAX)%N) ->
  exists r, map_mul_row O kr v terms lhs = Ok r /\
  forall k, m_get k r = match (if (k <? kr)%N then None else m_get (k - kr) lhs) with
                        | None => m_get k terms
                        | Some l => Some (match m_get k terms with None => fmul v l | Some t => fadd t (fmul v l) end) end.
Proof.
  intros Hl Hs. set (es := map (fun kv => ((kr + fst kv)%N, fmul v (snd kv))) lhs).
  assert (Hn : NoDup (keys es)).
  { unfold es. rewrite map_map. cbn [fst]. rewrite <- (map_map fst (fun k => (kr + k)%N)).
    apply FinFun.Injective_map_NoDup; [intros x y; lia|]. apply sorted_nodup, Hl. }
  destruct (upsert_fold f (fun p => p) fadd es Hn terms) as (r & E & H). exists r. split.
  - rewrite <- E. unfold map_mul_row, es. clear -Hs. revert terms. induction lhs as [|[k0 v0] lhs IH]; intros terms; [reflexivity|].
    cbn [map foldM fst snd]. rewrite uadd_small by (apply (Hs (k0, v0)); left; reflexivity). cbn [bind mul add float_num].
    destruct (m_upsert terms (kr + k0)%N (Ok (fmul v v0)) (fun w => Ok (fadd w (fmul v v0)))); try reflexivity.
    cbn [bind]. apply IH. intros kv Hk. apply Hs. right. exact Hk.
  - intros k. rewrite H. replace (m_get k es) with (option_map (fmul v) (if (k <? kr)%N then None else m_get (k - kr) lhs)).
    + destruct (if (k <? kr)%N then None else m_get (k - kr) lhs); reflexivity.
    + unfold es. clear. induction lhs as [|[k0 v0] lhs IH]; [destruct (k <? kr)%N; reflexivity|]. cbn [map m_get fst snd].
      rewrite <- IH. destruct (N.ltb_spec k kr) as [K|K].
      * replace (k =? kr + k0)%N with false by lia. reflexivity.
      * destruct (N.eqb_spec k (kr + k0)) as [->|Hk].
        -- replace (kr + k0 - kr)%N with k0 by lia. rewrite N.eqb_refl. reflexivity.
        -- replace (k - kr =? k0)%N with false by lia. reflexivity.
Qed.

(** How many entries of [rhs] meet an entry of [lhs] in degree [k]. *)
Definition meets lhs (k : N) (kv : N * flt f) : bool := if (k <? fst kv)%N then false else if m_get (k - fst kv) lhs then true else false.
Definition meeting lhs rhs (k : N) : nat := length (filter (meets lhs k) rhs).

Lemma meeting_le lhs rhs k : swf rhs -> (meeting lhs rhs k <= Nat.min (length lhs) (length rhs))%nat.
Proof.
  intros Hr. unfold meeting. apply Nat.min_glb.
  - rewrite <- (map_length (fun kv => (k - fst kv)%N) (filter _ _)), <- (map_length fst lhs). apply NoDup_incl_length.
    + pose proof (sorted_nodup rhs (proj1 Hr)) as Hn. clear Hr. induction rhs as [|[k0 v0] rhs IH]; [constructor|]. cbn [map] in Hn.
      apply NoDup_cons_iff in Hn. destruct Hn as [Hi Hn]. cbn [filter]. destruct (meets lhs k (k0, v0)) eqn:E; [|apply IH, Hn].
      cbn [map fst]. constructor; [|apply IH, Hn]. intros K. apply in_map_iff in K. destruct K as ([k1 v1] & K1 & K2).
      apply filter_In in K2. destruct K2 as [K2 K3]. unfold meets in E, K3. cbn [fst] in *.
      destruct (N.ltb_spec k k0); [discriminate|]. destruct (N.ltb_spec k k1); [discriminate|].
      apply Hi. apply in_map_iff. exists (k1, v1). split; [cbn; lia|exact K2].
    + intros x Hx. apply in_map_iff in Hx. destruct Hx as ([k1 v1] & <- & K2). apply filter_In in K2. destruct K2 as [_ K3].
      unfold meets in K3. cbn [fst] in *. destruct (k <? k1)%N; [discriminate|]. destruct (m_get (k - k1) lhs) as [w|] eqn:E; [|discriminate].
      apply m_get_in in E. apply (in_map fst) in E. exact E.
  - clear. induction rhs as [|kv rhs IH]; [apply Nat.le_refl|]. cbn [filter]. destruct (meets lhs k kv); cbn [length]; lia.
Qed.

Lemma acc_B K (t t' : flt f) v A : B t = B t' -> acc f K t v A -> acc f K t' v A.
Proof. intros E (k & H1 & H2 & H3). exists k. rewrite <- E. auto. Qed.

Lemma meets_cons lhs rhs k kv : (meeting lhs (kv :: rhs) k = (if meets lhs k kv then 1 else 0) + meeting lhs rhs k)%nat.
Proof. unfold meeting. cbn [filter]. destruct (meets lhs k kv); reflexivity. Qed.

Lemma sparse_mul_gen_err lhs rhs : swf lhs -> NoDup (keys rhs) ->
  (forall ka kb, In ka lhs -> In kb rhs -> (fst kb + fst ka <= USIZE_MAX)%N) ->
  forall terms (K : nat -> nat) (va aa : nat -> R),
  (forall d, is_finite (get terms (N.of_nat d)) = true -> acc f (K d) (get terms (N.of_nat d)) (va d) (aa d)) ->
  exists r, foldM (fun terms kv => if is_zero O (snd kv) then Ok terms else map_mul_row O (fst kv) (snd kv) terms lhs) terms rhs = Ok r /\
  forall d, is_finite (get r (N.of_nat d)) = true ->
    acc f (K d + meeting lhs rhs (N.of_nat d)) (get r (N.of_nat d)) (va d + @pmul R_ring (gpoly B rhs) (gpoly B lhs) d)
      (aa d + @pmul R_ring (gpoly (fun x => Rabs (B x)) rhs) (gpoly (fun x => Rabs (B x)) lhs) d).
Proof.
  intros Hl. assert (A0 : Rabs (B (fzero f)) = 0) by apply Rabs_R0.
  induction rhs as [|[kr v] rhs IH]; intros Hn Hs terms K va aa Ht.
  - exists terms. split; [reflexivity|]. intros d Hd. rewrite !gpoly_nil_mul by (exact A0 || reflexivity). rewrite !Rplus_0_r.
    eapply (acc_weaken f powi); [|reflexivity|reflexivity|apply Ht, Hd]. lia.
  - cbn [map fst] in Hn. apply NoDup_cons_iff in Hn. destruct Hn as [Hi Hn].
    assert (Hs' : forall ka kb, In ka lhs -> In kb rhs -> (fst kb + fst ka <= USIZE_MAX)%N) by (intros; apply Hs; [assumption|right; assumption]).
    cbn [foldM fst snd]. destruct (is_zero O v) eqn:Ez.
    + apply is_zero_B in Ez. destruct Ez as [Ez _]. cbn [bind].
      destruct (IH Hn Hs' terms K va aa Ht) as (r & E & H). exists r. split; [exact E|]. intros d Hd.
      rewrite !gpoly_cons_mul by (exact A0 || reflexivity || exact Hi). rewrite Ez, Rabs_R0.
      eapply (acc_weaken f powi); [| | |apply H, Hd].
      * rewrite meets_cons. lia.
      * destruct (d <? N.to_nat kr)%nat; ring.
      * destruct (d <? N.to_nat kr)%nat; ring.
    + destruct (map_mul_row_get kr v terms lhs Hl) as (t' & E' & H').
      { intros ka Hka. apply (Hs ka (kr, v) Hka). left. reflexivity. }
      rewrite E'. cbn [bind].
      set (K' d := (K d + if meets lhs (N.of_nat d) (kr, v) then 1 else 0)%nat).
      set (va' d := va d + (if (d <? N.to_nat kr)%nat then 0 else B v * gpoly B lhs (d - N.to_nat kr)%nat)).
      set (aa' d := aa d + (if (d <? N.to_nat kr)%nat then 0 else Rabs (B v) * gpoly (fun x => Rabs (B x)) lhs (d - N.to_nat kr)%nat)).
      destruct (IH Hn Hs' t' K' va' aa') as (r & E & H).
      * intros d Hd. unfold va', aa', K', gpoly, meets. cbn [fst]. unfold sget in Hd |- *. rewrite H' in Hd |- *.
        replace (N.of_nat (d - N.to_nat kr)) with (N.of_nat d - kr)%N by lia.
        replace (d <? N.to_nat kr)%nat with (N.of_nat d <? kr)%N by lia.
        specialize (Ht d). unfold sget in Ht. destruct (N.of_nat d <? kr)%N.
        -- eapply (acc_weaken f powi); [| | |apply Ht, Hd]; [lia|ring|ring].
        -- destruct (m_get (N.of_nat d - kr) lhs) as [l|].
           ++ destruct (m_get (N.of_nat d) terms) as [t|].
              ** destruct (fadd_operands _ _ Hd) as [Hd1 _].
                 eapply (acc_weaken f powi); [|reflexivity|reflexivity|apply (acc_step f powi); [apply Ht, Hd1|exact Hd]]. lia.
              ** assert (S : fsame (fmul v l) (fadd (fzero f) (fmul v l))) by (rewrite fadd_comm; apply fadd_zero_r).
                 apply fsame_B in S. destruct S as [S1 S2]. apply (acc_B _ _ _ _ _ (eq_sym S1)).
                 eapply (acc_weaken f powi); [|reflexivity|reflexivity|apply (acc_step f powi); [apply Ht; reflexivity|congruence]]. lia.
           ++ change (B (fzero f)) with 0. rewrite Rabs_R0, !Rmult_0_r, !Rplus_0_r. eapply (acc_weaken f powi); [|reflexivity|reflexivity|apply Ht, Hd]. lia.
      * exists r. split; [exact E|]. intros d Hd. rewrite !gpoly_cons_mul by (exact A0 || reflexivity || exact Hi).
        eapply (acc_weaken f powi); [| | |apply H, Hd]; unfold K', va', aa'; [rewrite meets_cons; lia|rewrite Rplus_assoc; reflexivity|rewrite Rplus_assoc; reflexivity].
Qed.

Lemma sparse_mul_err a b : swf a -> swf b ->
  (forall ka kb, In ka a -> In kb b -> (fst ka + fst kb <= USIZE_MAX)%N) ->
  exists r, sparse_mul O a b = Ok r /\
  forall d, is_finite (get r (N.of_nat d)) = true ->
    appr u (Nat.min (length a) (length b)) (B (get r (N.of_nat d))) (@pmul R_ring (gpoly B a) (gpoly B b) d)
      (@pmul R_ring (gpoly (fun x => Rabs (B x)) a) (gpoly (fun x => Rabs (B x)) b) d) (perr f (Nat.min (length a) (length b))).
Proof.
  intros Ha Hb Hs.
  destruct (sparse_mul_gen_err a b Ha (sorted_nodup b (proj1 Hb))) with (terms := @nil (N * flt f)) (K := fun _ : nat => 0%nat) (va := fun _ : nat => 0) (aa := fun _ : nat => 0)
    as (r & E & H).
  - intros ka kb H1 H2. rewrite N.add_comm. apply Hs; assumption.
  - intros d _. apply (acc_zero f).
  - exists r. split; [exact E|]. intros d Hd. destruct (H d Hd) as (k & Hk & _ & Ap). rewrite !Rplus_0_l in Ap.
    assert (Hm : (k <= Nat.min (length a) (length b))%nat) by (pose proof (meeting_le a b (N.of_nat d) Hb); lia).
    rewrite (@pmul_comm R_ring (gpoly B a)), (@pmul_comm R_ring (gpoly (fun x => Rabs (B x)) a)).
    eapply appr_weaken; [apply uro_pos|exact Hm|apply (perr_mono f), Hm|exact Ap].
Qed.

End Mul.
