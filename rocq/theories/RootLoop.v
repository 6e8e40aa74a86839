(** Deflation and the root-finding loop with exact arithmetic. *)

From Coq Require Import List NArith ZArith Lia Bool Ring Arith Sorted.
From Coq Require Import ZifyBool ZifyNat ZifyN.
From Verif Require Import Base Num Spec SpecFacts Laws Terms Dense DenseFacts DenseArith DenseMul DenseCalc DenseDiv Roots.
Import ListNotations.

Section RootSpec.
Context {R : comring}.

(** x - r *)
Definition plin (r : car R) : poly R := psub (pmono r1 1) (pmono r 0).

(** The product of x - r over a list. *)
Fixpoint rprod (l : list (car R)) : poly R :=
  match l with [] => pone | r :: l' => pmul (plin r) (rprod l') end.

End RootSpec.

Section RootLoop.
Context {T : Type} (O : num T) (R : comring) (den : T -> car R) (L : lawful O R den).
Context (X : exact_div O R den) (HT : total_ops O) (HD : domain R).
Add Ring Rring_rl : (r_theory R).
Notation dc := (dcoef R den).

Lemma plin_at (r : car R) d : plin r d = match d with 0%nat => ropp r | 1%nat => r1 | _ => r0 end.
Proof. unfold plin, psub, pmono. destruct d as [|[|d]]; simpl; ring. Qed.

Lemma plin_value (r x : car R) : is_value (plin r) x (rsub x r).
Proof.
  unfold plin. replace (rsub x r) with (rsub (rmul r1 (rpow x 1)) (rmul r (rpow x 0))) by (simpl; ring).
  apply is_value_psub; apply is_value_pmono.
Qed.

Lemma rprod_snoc l (r : car R) : peq (rprod (l ++ [r])) (pmul (rprod l) (plin r)).
Proof.
  induction l as [|s l IH]; cbn [app rprod].
  - eapply peq_trans; [apply pmul_comm|]. apply peq_refl.
  - eapply peq_trans; [apply pmul_ext; [apply peq_refl|exact IH]|]. apply pmul_assoc.
Qed.

Lemma update_at {A} (pre : list A) x post f y : f x = Ok y ->
  update (pre ++ x :: post) (N.of_nat (length pre)) f = Ok (pre ++ y :: post).
Proof.
  intros Hf. unfold update. destruct (N.ltb_spec (N.of_nat (length pre)) (len (pre ++ x :: post))) as [_|H].
  - rewrite Nnat.Nat2N.id. apply update_nat_complete, Hf.
  - unfold len in H. rewrite app_length in H. simpl in H. lia.
Qed.

Lemma one_nonzero : r1 <> @r0 R -> is_zero O (one O) = false.
Proof.
  intros H. destruct (is_zero O (one O)) eqn:E; [|reflexivity]. apply (is_zero_den O R den L) in E.
  rewrite (lw_one _ _ _ L) in E. contradiction.
Qed.

Context (H10 : r1 <> @r0 R).

Lemma small_len {A} (l : list A) : (len l <= n_max_len O)%N -> (len l <= USIZE_MAX)%N.
Proof. pose proof (lw_cap _ _ _ L) as H. unfold USIZE_MAX. intros K. etransitivity; [exact K|]. etransitivity; [exact H|]. vm_compute; discriminate. Qed.

(** One round of deflation. *)
Lemma defl_round_ok fuel root offset c sd values dv : first_term O values = TTerm c sd -> (1 <= sd)%N -> (sd <= offset)%N ->
  length dv = N.to_nat offset -> vec_ok O values ->
  exists values' dv',
    defl_loop O (S fuel) root offset c sd values dv =
      match first_term O values' with ZeroTerm => Ok dv' | TTerm c d => defl_loop O fuel root offset c d values' dv' end /\
    length dv' = length dv /\ length values' = length values /\
    (forall d, dc dv' d = if Nat.eqb d (N.to_nat sd - 1) then den c else dc dv d) /\
    peq (dc values') (psub (dc values) (pmul (pmono (den c) (N.to_nat sd - 1)) (plin (den root)))) /\
    (forall e, (N.to_nat sd <= e)%nat -> dc values' e = r0).
Proof.
  intros Hf H1 Ho Hl Hv. cbn [defl_loop]. destruct (N.leb_spec 1 sd) as [_|]; [|lia].
  destruct (X c (one O) (one_nonzero H10)) as (s & Hs & Es). rewrite (lw_one _ _ _ L), rmul_1_r in Es.
  rewrite Hs. cbn [bind].
  pose proof (first_term_TTerm O values c sd Hf) as (q & Sq & Lq & Zc).
  destruct (strip_split O values) as (pl & El & Pl & Al & _). rewrite Sq in El.
  destruct q as [|y q]; [unfold len in Lq; simpl in Lq; lia|].
  assert (Ll : len values = (N.of_nat (length pl) + sd + 1)%N).
  { rewrite El. unfold len in *. rewrite app_length. cbn [length] in *. lia. }
  pose proof (small_len values Hv) as Hsm. rewrite Ll in Hsm.
  rewrite Ll. rewrite usub_le by lia. cbn [bind]. rewrite usub_le by lia. cbn [bind].
  replace (N.of_nat (length pl) + sd + 1 - sd - 1)%N with (N.of_nat (length pl)) by lia.
  rewrite El.
  destruct (to_mul _ HT (one O) s) as (p1 & Hp1). destruct (to_sub _ HT c p1) as (z & Hz).
  destruct (to_mul _ HT root s) as (p2 & Hp2). destruct (to_add _ HT y p2) as (w & Hw).
  rewrite (update_at pl c (y :: q) _ z) by (rewrite Hp1; cbn [bind]; exact Hz). cbn [bind].
  rewrite uadd_small by lia. cbn [bind].
  replace (N.of_nat (length pl) + 1)%N with (N.of_nat (length (pl ++ [z]))) by (rewrite app_length; simpl; lia).
  replace (pl ++ z :: y :: q) with ((pl ++ [z]) ++ y :: q) by (rewrite <- app_assoc; reflexivity).
  rewrite (update_at (pl ++ [z]) y q _ w) by (rewrite Hp2; cbn [bind]; exact Hw). cbn [bind].
  rewrite usub_le by lia. cbn [bind].
  destruct (update_returns dv (offset - sd) s) as (dv' & Hdv); [unfold len; lia|].
  rewrite Hdv. cbn [bind]. apply (update_coef R den) in Hdv. destruct Hdv as (Ld & _ & Cd).
  assert (Zz : den z = r0).
  { rewrite (lw_sub _ _ _ L _ _ _ Hz), (lw_mul _ _ _ L _ _ _ Hp1), (lw_one _ _ _ L), Es. ring. }
  rewrite <- app_assoc. cbn [app]. exists (pl ++ z :: w :: q), dv'.
  split; [reflexivity|]. split; [exact Ld|]. split; [rewrite !app_length; reflexivity|]. split; [|split].
  - intros d. rewrite Cd, Es. replace (length dv - 1 - N.to_nat (offset - sd))%nat with (N.to_nat sd - 1)%nat by lia. reflexivity.
  - intros d. unfold len in Lq. cbn [length] in Lq. replace (N.to_nat sd - 1)%nat with (length q) by lia.
    unfold psub. rewrite pmul_pmono_l, !(dcoef_zeros O R den L) by exact Al. rewrite !dcoef_cons. cbn [length].
    destruct (Nat.ltb_spec d (length q)) as [Hd|Hd].
    + destruct (Nat.eqb_spec d (S (length q))); [lia|]. destruct (Nat.eqb_spec d (length q)); [lia|]. ring.
    + rewrite plin_at. destruct (Nat.eqb_spec d (S (length q))) as [->|].
      * replace (S (length q) - length q)%nat with 1%nat by lia. rewrite Zz. ring.
      * destruct (Nat.eqb_spec d (length q)) as [->|].
        -- rewrite Nat.sub_diag, (lw_add _ _ _ L _ _ _ Hw), (lw_mul _ _ _ L _ _ _ Hp2), Es. ring.
        -- replace (d - length q)%nat with (S (S (d - length q - 2))) by lia.
           rewrite (dcoef_overflow R den q) by lia. ring.
  - intros e He. unfold len in Lq. cbn [length] in Lq. rewrite (dcoef_zeros O R den L) by exact Al. rewrite !dcoef_cons. cbn [length].
    destruct (Nat.eqb_spec e (S (length q))); [exact Zz|]. destruct (Nat.eqb_spec e (length q)); [lia|].
    apply dcoef_overflow. lia.
Qed.

(** The deflation loop divides by x - root, dropping a constant remainder. *)
Lemma defl_loop_ok root offset fuel : forall values c sd dv, first_term O values = TTerm c sd -> (N.to_nat sd < fuel)%nat ->
  (sd <= offset)%N -> length dv = N.to_nat offset -> vec_ok O values ->
  (forall e, (e < N.to_nat sd)%nat -> dc dv e = r0) ->
  exists dv' k, defl_loop O fuel root offset c sd values dv = Ok dv' /\ length dv' = N.to_nat offset /\
    (forall e, (N.to_nat sd <= e)%nat -> dc dv' e = dc dv e) /\
    ((1 <= sd)%N -> dc dv' (N.to_nat sd - 1) = den c) /\
    peq (padd (pmul (plin (den root)) (dc dv')) (pmono k 0)) (padd (pmul (plin (den root)) (dc dv)) (dc values)).
Proof.
  induction fuel as [|fuel IH]; intros values c sd dv Hf Hfu Ho Hl Hv Hfree; [lia|].
  destruct (N.leb_spec 1 sd) as [H1|H1].
  - destruct (defl_round_ok fuel root offset c sd values dv Hf H1 Ho Hl Hv) as (values' & dv' & E & Ll & Lv & Cd & Cv & Cz).
    rewrite E. clear E.
    assert (HQ : peq (dc dv') (padd (dc dv) (pmono (den c) (N.to_nat sd - 1)))).
    { intros d. rewrite Cd. unfold padd, pmono. destruct (Nat.eqb_spec d (N.to_nat sd - 1)) as [->|]; [rewrite Hfree by lia|]; ring. }
    assert (INV : peq (padd (pmul (plin (den root)) (dc dv')) (dc values')) (padd (pmul (plin (den root)) (dc dv)) (dc values))).
    { intros d. unfold padd. rewrite Cv. unfold psub.
      rewrite (pmul_ext _ _ _ _ (peq_refl (plin (den root))) HQ), pmul_padd_r. unfold padd.
      rewrite (pmul_comm (pmono (den c) (N.to_nat sd - 1))). ring. }
    pose proof (first_term_spec O R den L values') as Hft.
    destruct (first_term O values') as [|c' sd'] eqn:Ef.
    + exists dv', r0. split; [reflexivity|]. split; [lia|]. split; [|split].
      * intros e He. rewrite Cd. destruct (Nat.eqb_spec e (N.to_nat sd - 1)); [lia|reflexivity].
      * intros _. rewrite Cd, Nat.eqb_refl. reflexivity.
      * eapply peq_trans; [|exact INV]. intros d. unfold padd. rewrite Hft. unfold pmono, pzero. destruct (Nat.eqb d 0); reflexivity.
    + destruct Hft as (Hc0 & Hc1 & _ & _).
      assert (Hlt : (sd' < sd)%N).
      { destruct (N.lt_ge_cases sd' sd) as [|Hge]; [assumption|exfalso].
        apply (is_zero_false_den O R den L) in Hc0. apply Hc0. rewrite <- Hc1. apply Cz. lia. }
      destruct (IH values' c' sd' dv' Ef) as (dv2 & k & E & L2 & C2 & _ & I2); try lia.
      { unfold vec_ok, len in *. rewrite Lv. exact Hv. }
      { intros e He. rewrite Cd. destruct (Nat.eqb_spec e (N.to_nat sd - 1)); [lia|]. apply Hfree. lia. }
      exists dv2, k. split; [exact E|]. split; [exact L2|]. split; [|split].
      * intros e He. rewrite C2 by lia. rewrite Cd. destruct (Nat.eqb_spec e (N.to_nat sd - 1)); [lia|reflexivity].
      * intros _. rewrite C2 by lia. rewrite Cd, Nat.eqb_refl. reflexivity.
      * eapply peq_trans; [exact I2|exact INV].
  - cbn [defl_loop]. destruct (N.leb_spec 1 sd); [lia|]. exists dv, (den c).
    split; [reflexivity|]. split; [exact Hl|]. split; [reflexivity|]. split; [lia|].
    pose proof (first_term_spec O R den L values) as Hft. rewrite Hf in Hft. destruct Hft as (_ & Hc1 & Hc2 & _).
    intros d. unfold padd, pmono. destruct (Nat.eqb_spec d 0) as [->|].
    + rewrite <- Hc1. replace (N.to_nat sd) with 0%nat by lia. reflexivity.
    + rewrite Hc2 by lia. reflexivity.
Qed.

(** A vector with a non-zero leading coefficient and degree at least one. *)
Definition lead (v : list T) : Prop := exists c q, v = c :: q /\ is_zero O c = false /\ (1 <= length q)%nat.

Lemma lead_first_term c q : is_zero O c = false -> first_term O (c :: q) = TTerm c (len q).
Proof. intros H. apply (first_term_app O [] c q); [constructor|exact H]. Qed.

Lemma deflate_ok fuel v root : lead v -> vec_ok O v -> (length v <= fuel)%nat ->
  exists w, deflate O fuel v root = Ok w /\
    ((length v = 2%nat /\ w = []) \/
     (lead w /\ S (length w) = length v /\ exists k, peq (dc v) (padd (pmul (plin (den root)) (dc w)) (pmono k 0)))).
Proof.
  intros (c & q & -> & Zc & Hq) Hv Hfu. unfold deflate. rewrite (lead_first_term c q Zc).
  destruct (N.eqb_spec (len q) 1) as [E1|E1].
  - exists []. split; [reflexivity|]. left. unfold len in E1. cbn [length]. split; [lia|reflexivity].
  - unfold vec_repeat. unfold vec_ok, len in *. cbn [length] in *.
    destruct (N.leb_spec (N.of_nat (length q)) (n_max_len O)) as [_|]; [|lia]. cbn [bind]. rewrite Nnat.Nat2N.id.
    destruct (defl_loop_ok root (N.of_nat (length q)) fuel (c :: q) c (N.of_nat (length q)) (repeat (zero O) (length q)))
      as (w & k & E & Lw & _ & Cw & I); try lia.
    { apply (lead_first_term c q Zc). }
    { rewrite repeat_length. lia. }
    { exact Hv. }
    { intros e _. apply (dcoef_all_zero O R den L), (all_zero_repeat O R den L). }
    exists w. split; [exact E|]. right. rewrite Nnat.Nat2N.id in *.
    assert (Zw : dc w (length q - 1) = den c) by (apply Cw; lia).
    split; [|split; [lia|]].
    + destruct w as [|d w]; [simpl in Lw; lia|]. exists d, w. split; [reflexivity|]. cbn [length] in Lw.
      rewrite dcoef_cons in Zw. destruct (Nat.eqb_spec (length q - 1) (length w)) as [_|]; [|lia].
      split; [|lia]. destruct (is_zero O d) eqn:Ed; [|reflexivity]. apply (is_zero_den O R den L) in Ed.
      apply (is_zero_false_den O R den L) in Zc. congruence.
    + exists k. intros d. rewrite I. unfold padd. rewrite pmul_zero_r; [unfold pzero; ring|].
      apply (dcoef_all_zero O R den L), (all_zero_repeat O R den L).
Qed.

(** [normalize] and the division by the leading coefficient. *)
Lemma div_map_ok b l : is_zero O b = false ->
  exists w, mapM (fun v => div O v b) l = Ok w /\ length w = length l /\ forall d, rmul (dc w d) (den b) = dc l d.
Proof.
  intros Hb. induction l as [|x l (w & E & Lw & C)]; cbn [mapM].
  - exists []. split; [reflexivity|]. split; [reflexivity|]. intros d. rewrite dcoef_nil. ring.
  - destruct (X x b Hb) as (s & Hs & Es). rewrite Hs. cbn [bind]. rewrite E. cbn [bind]. exists (s :: w).
    split; [reflexivity|]. split; [simpl; lia|]. intros d. rewrite !dcoef_cons, Lw. destruct (Nat.eqb d (length l)); [exact Es|apply C].
Qed.

Lemma div_map_lead b v w : is_zero O b = false -> lead v -> length w = length v -> (forall d, rmul (dc w d) (den b) = dc v d) -> lead w.
Proof.
  intros Hb (c & q & -> & Zc & Hq) Lw C. destruct w as [|d w]; [discriminate|]. cbn [length] in Lw.
  exists d, w. split; [reflexivity|]. split; [|lia]. destruct (is_zero O d) eqn:Ed; [|reflexivity].
  apply (is_zero_den O R den L) in Ed. apply (is_zero_false_den O R den L) in Zc. specialize (C (length q)).
  rewrite !dcoef_cons in C. replace (length w) with (length q) in C by lia. rewrite Nat.eqb_refl, Ed in C.
  exfalso. apply Zc. rewrite <- C. ring.
Qed.

Lemma normalize_ok v : lead v -> exists w b, normalize O v = Ok w /\ lead w /\ length w = length v /\ is_zero O b = false /\
  forall d, rmul (dc w d) (den b) = dc v d.
Proof.
  intros HL. pose proof HL as (c & q & -> & Zc & Hq). unfold normalize.
  rewrite first_nonzero_index_fnz. cbn [fnz]. rewrite Zc. cbn [length Nat.eqb N.of_nat]. cbn [index].
  assert (index (c :: q) 0 = Ok c) as -> by reflexivity. cbn [bind]. cbn [slice_from firstn].
  assert (slice_from (c :: q) 0 = Ok (c :: q)) as -> by reflexivity. cbn [bind].
  destruct (div_map_ok c (c :: q) Zc) as (w & -> & Lw & C). cbn [bind app].
  exists w, c. split; [reflexivity|]. split; [eapply div_map_lead; eassumption|]. auto.
Qed.

(** ** The loop *)
Section Find.
Context (S : rops T) (solver : nat -> list T -> list T) (dfuel : nat) (n : nat) (eval : T -> res T) (P : poly R).
Context (Heval : forall x, exists v, eval x = Ok v /\ is_value P (den x) (den v)).
Context (Habs : forall a, exists b, absv O a = Ok b).
Notation take := (take_root O S dfuel eval).
Notation loop := (find_loop O S solver dfuel (Num (N.of_nat n)) eval).

Definition good (nv : list T) : Prop := nv = [] \/ (lead nv /\ vec_ok O nv /\ (length nv <= dfuel)%nat).

Lemma deflate_nil root : deflate O dfuel [] root = Ok [].
Proof. reflexivity. Qed.

Lemma vec_ok_shorter (a b : list T) : vec_ok O a -> (length b <= length a)%nat -> vec_ok O b.
Proof. unfold vec_ok, len. lia. Qed.

Lemma take_ok nv rts root : good nv -> exists nv' root', take (nv, rts) root = Ok (nv', rts ++ [root']) /\ good nv' /\
  (nv = [] -> nv' = []) /\ (nv' <> [] -> Datatypes.S (length nv') = length nv).
Proof.
  intros HG. unfold take_root. cbn [fst snd].
  destruct (Heval (round S root)) as (ex & -> & _). cbn [bind]. destruct (Habs ex) as (ax & ->). cbn [bind].
  destruct (Heval root) as (er & -> & _). cbn [bind]. destruct (Habs er) as (ar & ->). cbn [bind].
  set (root' := if lt S ax ar then round S root else root).
  destruct HG as [->|(HL & Hv & Hd)].
  - rewrite deflate_nil. cbn [bind]. exists [], root'. split; [reflexivity|]. split; [left; reflexivity|]. split; [reflexivity|congruence].
  - destruct (deflate_ok dfuel nv root' HL Hv Hd) as (w & -> & [[_ ->]|(Lw & El & _)]); cbn [bind].
    + exists [], root'. split; [reflexivity|]. split; [left; reflexivity|]. split; [reflexivity|congruence].
    + exists w, root'. split; [reflexivity|]. split.
      * right. split; [exact Lw|]. split; [eapply vec_ok_shorter; [exact Hv|lia]|lia].
      * split; [|intros _; exact El]. intros ->. destruct HL as (? & ? & ? & _). discriminate.
Qed.

Lemma fold_take_ok temp : forall nv rts, good nv -> exists nv' rts', foldM take (nv, rts) temp = Ok (nv', rts') /\ good nv' /\
  (nv' <> [] -> (length nv' + length temp = length nv)%nat).
Proof.
  induction temp as [|r temp IH]; intros nv rts HG; cbn [foldM].
  - exists nv, rts. split; [reflexivity|]. split; [exact HG|]. simpl. lia.
  - destruct (take_ok nv rts r HG) as (nv1 & r' & -> & HG1 & N1 & L1). cbn [bind].
    destruct (IH nv1 (rts ++ [r']) HG1) as (nv2 & rts2 & -> & HG2 & L2). exists nv2, rts2.
    split; [reflexivity|]. split; [exact HG2|]. intros Hne. specialize (L2 Hne). simpl.
    destruct nv1 as [|x nv1].
    + simpl in L2. destruct nv2; [congruence|simpl in L2; lia].
    + specialize (L1 ltac:(discriminate)). lia.
Qed.

Lemma good_lead nv : good nv -> nv <> [] -> lead nv /\ vec_ok O nv /\ (length nv <= dfuel)%nat.
Proof. intros [->|H] Hne; [congruence|exact H]. Qed.

Lemma loop_returns fuel : forall pass values nv rts, values <> [] -> good nv -> (length nv < fuel)%nat ->
  exists rs, loop fuel pass values nv rts = Ok rs.
Proof.
  induction fuel as [|fuel IH]; intros pass values nv rts Hvs HG Hfu; [lia|].
  cbn [find_loop]. destruct values as [|v0 tl]; [congruence|].
  assert (slice_from (v0 :: tl) 1 = Ok tl) as -> by reflexivity. cbn [bind].
  destruct (solver pass tl) as [|r temp] eqn:Es.
  - destruct (N.of_nat n =? len [])%N; [eauto|]. destruct rts; eauto.
  - destruct (fold_take_ok (r :: temp) nv rts HG) as (nv1 & rts1 & -> & HG1 & L1). cbn [bind].
    destruct nv1 as [|x nv1].
    { destruct rts1; eauto. }
    specialize (L1 ltac:(discriminate)). destruct (good_lead _ HG1 ltac:(discriminate)) as (Ld1 & V1 & D1).
    destruct (normalize_ok _ Ld1) as (w & b & -> & Lw & Ew & _). cbn [bind].
    pose proof Lw as (c & q & -> & Zc & _).
    assert (index (c :: q) 0 = Ok c) as -> by reflexivity. cbn [bind].
    destruct (div_map_ok c (c :: q) Zc) as (u & -> & Lu & _). cbn [bind].
    apply IH.
    + destruct u; [discriminate|congruence].
    + right. split; [exact Lw|]. split; [eapply vec_ok_shorter; [exact V1|lia]|lia].
    + simpl in L1 |- *. simpl in Ew. lia.
Qed.

(** *** With a sound solver *)

(** The solver returns distinct roots of the monic polynomial with the given lower
    coefficients. *)
Definition sound_solver : Prop := forall pass tl, NoDup (solver pass tl) /\
  forall r, In r (solver pass tl) -> is_value (dc (one O :: tl)) (den r) r0.
Definition complete_solver : Prop := forall pass tl r, is_value (dc (one O :: tl)) (den r) r0 -> In r (solver pass tl).

Context (Hlt : forall a b a' b', den b = r0 -> absv O a = Ok a' -> absv O b = Ok b' -> lt S a' b' = false).
Context (HS : sound_solver).

Definition split_off (nv : list T) (rts : list T) : Prop :=
  exists k, k <> r0 /\ peq P (pmul (pmono k 0) (pmul (rprod (map den rts)) (dc nv))).

Lemma pmul_k k (a : poly R) d : pmul (pmono k 0) a d = rmul k (a d).
Proof. rewrite pmul_pmono_l. simpl. rewrite Nat.sub_0_r. reflexivity. Qed.

Lemma is_value_ex l x : exists v, is_value (dc l) x v.
Proof. destruct (dcoef_pfin R den l) as (m & Hm). exists (sumn (fun i => rmul (dc l i) (rpow x i)) m), m. auto. Qed.

Lemma rprod_value_ex l x : exists v, is_value (@rprod R l) x v.
Proof.
  induction l as [|r l (v & IH)]; cbn [rprod].
  - exists r1. apply is_value_pone.
  - eexists. apply is_value_pmul; [apply plin_value|exact IH].
Qed.

Lemma rprod_root l r : In r l -> is_value (@rprod R l) r r0.
Proof.
  induction l as [|s l IH]; intros []; cbn [rprod].
  - subst s. destruct (rprod_value_ex l r) as (v & Hv). replace r0 with (rmul (rsub r r) v) by ring.
    apply is_value_pmul; [apply plin_value|exact Hv].
  - replace (@r0 R) with (rmul (rsub r s) r0) by ring. apply is_value_pmul; [apply plin_value|apply IH; assumption].
Qed.

Lemma split_root nv rts r : split_off nv rts -> is_value (dc nv) r r0 -> is_value P r r0.
Proof.
  intros (k & _ & HP) Hr. eapply is_value_ext; [apply peq_sym, HP|].
  destruct (rprod_value_ex (map den rts) r) as (v & Hv).
  replace (@r0 R) with (rmul (rmul k (rpow r 0)) (rmul v r0)) by ring.
  apply is_value_pmul; [apply is_value_pmono|]. apply is_value_pmul; assumption.
Qed.

(** One genuine root taken out. *)
Lemma take_sound nv rts root : lead nv -> vec_ok O nv -> (length nv <= dfuel)%nat -> split_off nv rts ->
  is_value (dc nv) (den root) r0 ->
  exists nv', take (nv, rts) root = Ok (nv', rts ++ [root]) /\
    ((nv' = [] /\ length nv = 2%nat /\ (exists k, k <> r0 /\ peq P (pmul (pmono k 0) (rprod (map den (rts ++ [root]))))) /\
      (forall s, is_value (dc nv) (den s) r0 -> s = root)) \/
     (lead nv' /\ Datatypes.S (length nv') = length nv /\ split_off nv' (rts ++ [root]) /\
      (forall s, s <> root -> is_value (dc nv) (den s) r0 -> is_value (dc nv') (den s) r0))).
Proof.
  intros HL Hv Hd HP Hr. unfold take_root. cbn [fst snd].
  destruct (Heval (round S root)) as (ex & -> & _). cbn [bind]. destruct (Habs ex) as (ax & Ex). rewrite Ex. cbn [bind].
  destruct (Heval root) as (er & -> & Ver). cbn [bind]. destruct (Habs er) as (ar & Er). rewrite Er. cbn [bind].
  assert (Zr : den er = r0) by (eapply is_value_fun; [exact Ver|eapply split_root; eassumption]).
  rewrite (Hlt ex er ax ar Zr Ex Er).
  destruct (deflate_ok dfuel nv root HL Hv Hd) as (w & -> & C). cbn [bind]. exists w. split; [reflexivity|].
  destruct HP as (k & Hk & HP). rewrite map_app. cbn [map].
  destruct C as [[E2 ->]|(Lw & El & k' & Hw)].
  - left. split; [reflexivity|]. split; [exact E2|].
    destruct HL as (a & q & -> & Za & _). destruct q as [|b q]; [discriminate|]. destruct q; [|discriminate].
    apply (is_zero_false_den O R den L) in Za.
    assert (V : forall s, is_value (dc [a; b]) s (radd (rmul (den a) s) (den b))).
    { intros s. exists 2%nat. split.
      - intros i Hi. apply dcoef_overflow. exact Hi.
      - cbn [sumn]. rewrite !dcoef_cons. simpl. ring. }
    assert (Eb : den b = ropp (rmul (den a) (den root))).
    { pose proof (is_value_fun _ _ _ _ (V (den root)) Hr) as E.
      replace (den b) with (rsub (radd (rmul (den a) (den root)) (den b)) (rmul (den a) (den root))) by ring.
      rewrite E. ring. }
    split.
    + exists (rmul k (den a)). split.
      { intros E. destruct (HD _ _ E); contradiction. }
      eapply peq_trans; [exact HP|]. intros d. rewrite !pmul_k.
      assert (F : peq (dc [a; b]) (pmul (pmono (den a) 0) (plin (den root)))).
      { intros e. rewrite pmul_k, plin_at, !dcoef_cons, dcoef_nil. cbn [length]. destruct e as [|[|e]]; simpl; try ring.
        rewrite Eb. ring. }
      rewrite (pmul_ext _ _ _ _ (peq_refl _) F), (rprod_snoc (map den rts) (den root) d).
      rewrite pmul_assoc, (pmul_ext _ _ _ _ (pmul_comm (rprod (map den rts)) (pmono (den a) 0)) (peq_refl _)).
      rewrite <- pmul_assoc, pmul_k. ring.
    + intros s Hs. apply (lw_inj _ _ _ L).
      pose proof (is_value_fun _ _ _ _ (V (den s)) Hs) as E. rewrite Eb in E.
      assert (K : rmul (den a) (rsub (den s) (den root)) = r0) by (rewrite <- E; ring).
      destruct (HD _ _ K) as [|K']; [contradiction|]. apply rsub_eq_0, K'.
  - right. split; [exact Lw|]. split; [exact El|].
    assert (V : forall s v, is_value (dc w) s v -> is_value (dc nv) s (radd (rmul (rsub s (den root)) v) k')).
    { intros s v Hsv. eapply is_value_ext; [apply peq_sym, Hw|].
      replace (radd (rmul (rsub s (den root)) v) k') with (radd (rmul (rsub s (den root)) v) (rmul k' (rpow s 0))) by (simpl; ring).
      apply is_value_padd; [apply is_value_pmul; [apply plin_value|exact Hsv]|apply is_value_pmono]. }
    assert (K0 : k' = r0).
    { destruct (is_value_ex w (den root)) as (v & Hwv).
      pose proof (is_value_fun _ _ _ _ (V _ _ Hwv) Hr) as E. rewrite <- E. ring. }
    assert (F : peq (dc nv) (pmul (plin (den root)) (dc w))).
    { intros d. rewrite Hw. unfold padd, pmono. rewrite K0. destruct (Nat.eqb d 0); ring. }
    split.
    + exists k. split; [exact Hk|]. eapply peq_trans; [exact HP|]. intros d. rewrite !pmul_k. f_equal.
      rewrite map_app. cbn [map]. rewrite (pmul_ext _ _ _ _ (peq_refl _) F).
      rewrite (pmul_ext _ _ _ _ (rprod_snoc (map den rts) (den root)) (peq_refl _)). apply pmul_assoc.
    + intros s Hne Hs. destruct (is_value_ex w (den s)) as (v & Hwv).
      pose proof (is_value_fun _ _ _ _ (V _ _ Hwv) Hs) as E. rewrite K0 in E.
      assert (K : rmul (rsub (den s) (den root)) v = r0) by (rewrite <- E; ring).
      destruct (HD _ _ K) as [K'|K']; [|rewrite <- K'; exact Hwv].
      exfalso. apply Hne, (lw_inj _ _ _ L), rsub_eq_0, K'.
Qed.

Lemma fold_take_sound temp : forall nv rts, temp <> [] -> lead nv -> vec_ok O nv -> (length nv <= dfuel)%nat -> split_off nv rts ->
  NoDup temp -> (forall r, In r temp -> is_value (dc nv) (den r) r0) ->
  exists nv', foldM take (nv, rts) temp = Ok (nv', rts ++ temp) /\
    ((nv' = [] /\ (length nv = Datatypes.S (length temp)) /\ exists k, k <> r0 /\ peq P (pmul (pmono k 0) (rprod (map den (rts ++ temp))))) \/
     (lead nv' /\ (length nv' + length temp = length nv)%nat /\ split_off nv' (rts ++ temp))).
Proof.
  induction temp as [|r temp IH]; intros nv rts Hne HL Hv Hd HP Hnd Hrt; [congruence|]. cbn [foldM].
  inversion_clear Hnd as [|? ? Hr Hnd'].
  destruct (take_sound nv rts r HL Hv Hd HP (Hrt r (or_introl eq_refl))) as (nv1 & -> & C). cbn [bind].
  destruct temp as [|r2 temp].
  - cbn [foldM]. exists nv1. split; [reflexivity|]. destruct C as [(E1 & E2 & E3 & _)|(E1 & E2 & E3 & _)].
    + left. split; [exact E1|]. split; [exact E2|exact E3].
    + right. split; [exact E1|]. split; [simpl; lia|exact E3].
  - destruct C as [(_ & _ & _ & E)|(L1 & E1 & P1 & R1)].
    + exfalso. apply Hr. left. apply E, Hrt. right. left. reflexivity.
    + destruct (IH nv1 (rts ++ [r])) as (nv2 & -> & C2); try assumption; try lia; try congruence.
      { eapply vec_ok_shorter; [exact Hv|lia]. }
      { intros s Hs. apply R1; [|apply Hrt; right; exact Hs]. intros ->. contradiction. }
      rewrite <- app_assoc in *. cbn [app] in *. exists nv2. split; [reflexivity|].
      destruct C2 as [(E2 & E3 & E4)|(E2 & E3 & E4)].
      * left. split; [exact E2|]. split; [cbn [length] in *; lia|exact E4].
      * right. split; [exact E2|]. split; [cbn [length] in *; lia|exact E4].
Qed.

(** What the loop may return. *)
Definition outcome (rs : roots T) : Prop :=
  match rs with
  | ManyRealRoots l => length l = n /\ exists k, k <> r0 /\ peq P (pmul (pmono k 0) (rprod (map den l)))
  | OnlyRealRoots l => l <> [] /\ (length l < n)%nat /\
      exists q, peq P (pmul (rprod (map den l)) q) /\ is_degree q (Some (n - length l)%nat) /\
        (complete_solver -> forall r, ~ is_value q (den r) r0)
  | NoRoots => complete_solver -> forall r, ~ is_value P (den r) r0
  | _ => False
  end.

(** The values handed to the solver are those of the remaining polynomial made monic. *)
Definition monic_of (values nv : list T) : Prop :=
  exists v0 tl c, values = v0 :: tl /\ is_zero O c = false /\ forall d, rmul (dc (one O :: tl) d) (den c) = dc nv d.

Lemma monic_value tl c nv x v : (forall d, rmul (dc (one O :: tl) d) (den c) = dc nv d) ->
  is_value (dc (one O :: tl)) x v -> is_value (dc nv) x (rmul v (den c)).
Proof.
  intros H Hx. eapply is_value_ext; [|apply is_value_pscale, Hx]. intros d. unfold pscale. apply H.
Qed.

Lemma lead_degree c q : is_zero O c = false -> is_degree (dc (c :: q)) (Some (length q)).
Proof.
  intros Zc. split.
  - rewrite dcoef_cons, Nat.eqb_refl. apply (is_zero_false_den O R den L), Zc.
  - intros d Hd. apply dcoef_overflow. simpl. lia.
Qed.

Lemma loop_sound fuel : forall pass values nv rts rs, monic_of values nv -> lead nv -> vec_ok O nv -> (length nv <= dfuel)%nat ->
  split_off nv rts -> (length nv + length rts = Datatypes.S n)%nat ->
  loop fuel pass values nv rts = Ok rs -> outcome rs.
Proof.
  induction fuel as [|fuel IH]; intros pass values nv rts rs HM HL Hv Hd HP Hlen H; [discriminate|].
  cbn [find_loop] in H. destruct HM as (v0 & tl & c & -> & Zc & HM).
  change (slice_from (v0 :: tl) 1) with (Ok tl) in H. cbn [bind] in H.
  destruct (HS pass tl) as [ND RT].
  assert (RT' : forall r, In r (solver pass tl) -> is_value (dc nv) (den r) r0).
  { intros r Hr. replace (@r0 R) with (rmul r0 (den c)) by ring. eapply monic_value; [exact HM|apply RT, Hr]. }
  destruct (solver pass tl) as [|r temp] eqn:Es.
  - assert (N0 : complete_solver -> forall r v, is_value (dc nv) (den r) v -> v <> r0).
    { intros CS r v Hrv E. specialize (CS pass tl r). rewrite Es in CS. apply CS.
      destruct (is_value_ex (one O :: tl) (den r)) as (u & Hu).
      pose proof (is_value_fun _ _ _ _ (monic_value _ _ _ _ _ HM Hu) Hrv) as E2. rewrite E in E2.
      destruct (HD _ _ E2) as [<-|K]; [exact Hu|]. apply (is_zero_false_den O R den L) in Zc. contradiction. }
    pose proof HL as (a & q & -> & Za & Hq). cbn [length] in Hlen.
    destruct (N.eqb_spec (N.of_nat n) (len (@nil T))) as [E|_]; [unfold len in E; simpl in E; lia|].
    destruct HP as (k & Hk & HP).
    destruct rts as [|t rts]; injection H as <-; cbn [outcome].
    + intros CS r Hr. cbn [rprod map] in HP.
      destruct (is_value_ex (a :: q) (den r)) as (v & Hrv).
      assert (V : is_value P (den r) (rmul k v)).
      { eapply is_value_ext; [apply peq_sym, HP|]. replace (rmul k v) with (rmul (rmul k (rpow (den r) 0)) (rmul r1 v)) by (simpl; ring).
        apply is_value_pmul; [apply is_value_pmono|apply is_value_pmul; [apply is_value_pone|exact Hrv]]. }
      pose proof (is_value_fun _ _ _ _ V Hr) as E. destruct (HD _ _ E) as [|E']; [contradiction|].
      eapply N0; eassumption.
    + split; [discriminate|]. cbn [length] in *. split; [lia|].
      exists (pmul (pmono k 0) (dc (a :: q))). split; [|split].
      * eapply peq_trans; [exact HP|]. intros d. rewrite !pmul_assoc.
        apply (pmul_ext _ _ _ _ (pmul_comm (pmono k 0) _) (peq_refl _)).
      * replace (n - Datatypes.S (length rts))%nat with (length q) by lia.
        destruct (lead_degree a q Za) as [D1 D2]. split.
        -- rewrite pmul_k. intros E. destruct (HD _ _ E); contradiction.
        -- intros d Hdq. rewrite pmul_k, D2 by exact Hdq. ring.
      * intros CS r Hr. destruct (is_value_ex (a :: q) (den r)) as (v & Hrv).
        assert (V : is_value (pmul (pmono k 0) (dc (a :: q))) (den r) (rmul k v)).
        { replace (rmul k v) with (rmul (rmul k (rpow (den r) 0)) v) by (simpl; ring).
          apply is_value_pmul; [apply is_value_pmono|exact Hrv]. }
        pose proof (is_value_fun _ _ _ _ V Hr) as E. destruct (HD _ _ E) as [|E']; [contradiction|].
        eapply N0; eassumption.
  - destruct (fold_take_sound (r :: temp) nv rts ltac:(discriminate) HL Hv Hd HP ND RT') as (nv1 & E & C).
    rewrite E in H. cbn [bind] in H. clear E.
    destruct C as [(-> & E2 & E3)|(L1 & E1 & P1)].
    + destruct (rts ++ r :: temp) as [|z zs] eqn:Ez; [destruct rts; discriminate|].
      injection H as <-. cbn [outcome]. split; [|exact E3]. rewrite <- Ez, app_length. lia.
    + destruct nv1 as [|x nv1]; [destruct L1 as (? & ? & ? & _); discriminate|].
      destruct (normalize_ok _ L1) as (w & b & Ew & Lw & Elw & Zb & Cw). rewrite Ew in H. cbn [bind] in H.
      pose proof Lw as (c2 & q2 & -> & Zc2 & _).
      change (index (c2 :: q2) 0) with (Ok c2) in H. cbn [bind] in H.
      destruct (div_map_ok c2 (c2 :: q2) Zc2) as (u & Eu & Lu & Cu). rewrite Eu in H. cbn [bind] in H.
      eapply IH; [| | | | | |exact H].
      * destruct u as [|u0 u]; [discriminate|]. exists u0, u, c2. split; [reflexivity|]. split; [exact Zc2|].
        assert (U0 : den u0 = r1).
        { specialize (Cu (length q2)). cbn [length] in Lu. rewrite !dcoef_cons in Cu.
          replace (length u) with (length q2) in Cu by lia. rewrite Nat.eqb_refl in Cu.
          apply (is_zero_false_den O R den L) in Zc2.
          assert (K : rmul (rsub (den u0) r1) (den c2) = r0).
          { replace (rmul (rsub (den u0) r1) (den c2)) with (rsub (rmul (den u0) (den c2)) (den c2)) by ring. rewrite Cu. ring. }
          destruct (HD _ _ K) as [K'|]; [apply rsub_eq_0, K'|contradiction]. }
        assert (u0 = one O) as <- by (apply (lw_inj _ _ _ L); rewrite (lw_one _ _ _ L); exact U0). exact Cu.
      * exact Lw.
      * eapply vec_ok_shorter; [exact Hv|lia].
      * lia.
      * destruct P1 as (k & Hk & P1). exists (rmul k (den b)). split.
        { intros E. apply (is_zero_false_den O R den L) in Zb. destruct (HD _ _ E); contradiction. }
        eapply peq_trans; [exact P1|]. intros d. rewrite !pmul_k, <- rmul_assoc. f_equal.
        rewrite pmul_comm. rewrite (pmul_ext _ (pmul (pmono (den b) 0) (dc (c2 :: q2))) _ _ ) by
          (try apply peq_refl; intros e; rewrite pmul_k, <- Cw; ring).
        rewrite <- pmul_assoc, pmul_k. f_equal. apply pmul_comm.
      * rewrite app_length. lia.
Qed.

(** *** The start *)
Lemma fill_ok degree c rest : is_zero O c = false -> StronglySorted (fun a b : T * N => (snd b < snd a)%N) rest ->
  Forall (fun t : T * N => (snd t < degree)%N) rest ->
  forall values nv, length values = Datatypes.S (N.to_nat degree) -> length nv = Datatypes.S (N.to_nat degree) ->
  (forall t, In t rest -> dc values (N.to_nat (snd t)) = r0 /\ dc nv (N.to_nat (snd t)) = r0) ->
  exists values' nv', foldM (fill_step O degree c) (values, nv) rest = Ok (values', nv') /\
    length values' = length values /\ length nv' = length nv /\
    (forall d, dc nv' d = radd (dc nv d) (terms_coef (dterms R den rest) d)) /\
    (forall d, rmul (dc values' d) (den c) = radd (rmul (dc values d) (den c)) (terms_coef (dterms R den rest) d)).
Proof.
  clear Heval Habs Hlt HS.
  intros Zc. induction rest as [|[x e] rest IH]; intros Hs Hf values nv Lv Ln Hz; cbn [foldM dterms map terms_coef fst snd].
  - exists values, nv. repeat split; intros d; unfold pzero; ring.
  - inversion_clear Hs as [|? ? Hs' Hlt']. inversion_clear Hf as [|? ? He Hf']. cbn [snd] in *.
    unfold fill_step at 1. cbn [fst snd]. rewrite usub_le by lia. cbn [bind].
    destruct (X x c Zc) as (w & -> & Ew). cbn [bind].
    destruct (update_returns values (degree - e) w) as (v1 & Hu); [unfold len; lia|]. rewrite Hu. cbn [bind].
    destruct (update_returns nv (degree - e) x) as (n1 & Hn); [unfold len; lia|]. rewrite Hn. cbn [bind].
    apply (update_coef R den) in Hu. destruct Hu as (Lu & _ & Cu). apply (update_coef R den) in Hn. destruct Hn as (Lw & _ & Cn).
    replace (length values - 1 - N.to_nat (degree - e))%nat with (N.to_nat e) in Cu by lia.
    replace (length nv - 1 - N.to_nat (degree - e))%nat with (N.to_nat e) in Cn by lia.
    destruct (Hz (x, e) (or_introl eq_refl)) as [Z1 Z2]. cbn [snd] in Z1, Z2.
    destruct (IH Hs' Hf' v1 n1) as (v2 & n2 & E & L2 & L3 & C2 & C3); try lia.
    { intros t Ht. rewrite Cu, Cn. rewrite Forall_forall in Hlt'. specialize (Hlt' t Ht).
      destruct (Nat.eqb_spec (N.to_nat (snd t)) (N.to_nat e)); [lia|]. apply Hz. right. exact Ht. }
    exists v2, n2. split; [exact E|]. split; [lia|]. split; [lia|]. split; intros d; unfold padd, pmono.
    + rewrite C2, Cn. fold (dterms R den rest). destruct (Nat.eqb_spec d (N.to_nat e)) as [->|]; [rewrite Z2|]; ring.
    + rewrite C3, Cu. fold (dterms R den rest). destruct (Nat.eqb_spec d (N.to_nat e)) as [->|]; [rewrite Z1, <- Ew|]; ring.
Qed.

Lemma start_ok c rest : is_listing P (dterms R den ((c, N.of_nat n) :: rest)) -> (1 <= n)%nat -> (N.of_nat n + 1 <= n_max_len O)%N ->
  exists values nv, foldM (fill_step O (N.of_nat n) c) (repeat (zero O) (Datatypes.S n), c :: repeat (zero O) n) rest = Ok (values, nv) /\
    monic_of values nv /\ lead nv /\ vec_ok O nv /\ length nv = Datatypes.S n /\ split_off nv [].
Proof.
  clear Heval Habs Hlt HS.
  intros HP Hn Hc. pose proof HP as (HS1 & HS2 & HS3). cbn [dterms map fst snd] in HS1, HS2, HS3. fold (dterms R den rest) in *.
  inversion_clear HS2 as [|? ? Hc0 _]. cbn [fst] in Hc0. inversion_clear HS1 as [|? ? Hs Hb].
  assert (Zc : is_zero O c = false).
  { destruct (is_zero O c) eqn:E; [|reflexivity]. apply (is_zero_den O R den L) in E. contradiction. }
  assert (Hs' : StronglySorted (fun a b : T * N => (snd b < snd a)%N) rest).
  { clear - Hs. induction rest as [|t rest IH]; [constructor|]. cbn [dterms map] in Hs. inversion_clear Hs as [|? ? H1 H2].
    constructor; [apply IH, H1|]. rewrite Forall_forall in *. intros u Hu. apply (H2 (den (fst u), snd u)). apply in_map_iff. exists u. auto. }
  assert (Hb' : Forall (fun t : T * N => (snd t < N.of_nat n)%N) rest).
  { rewrite Forall_forall in *. intros u Hu. apply (Hb (den (fst u), snd u)). apply in_map_iff. exists u. auto. }
  assert (Z : forall m d, dc (repeat (zero O) m) d = r0) by (intros m d; apply (dcoef_all_zero O R den L), (all_zero_repeat O R den L)).
  destruct (fill_ok (N.of_nat n) c rest Zc Hs' Hb' (repeat (zero O) (Datatypes.S n)) (c :: repeat (zero O) n)) as (values & nv & E & Lv & Ln & Cn & Cv).
  { rewrite repeat_length, Nnat.Nat2N.id. reflexivity. }
  { simpl. rewrite repeat_length, Nnat.Nat2N.id. reflexivity. }
  { intros t Ht. rewrite Forall_forall in Hb'. specialize (Hb' t Ht). split; [apply Z|]. rewrite dcoef_cons, Z, repeat_length.
    destruct (Nat.eqb_spec (N.to_nat (snd t)) n); [lia|reflexivity]. }
  cbn [length] in Ln. rewrite repeat_length in Ln, Lv.
  assert (Tn : terms_coef (dterms R den rest) n = r0).
  { apply (terms_coef_above _ (N.of_nat n)); [|lia]. rewrite Forall_forall. intros u Hu. apply in_map_iff in Hu.
    destruct Hu as (t & <- & Ht). rewrite Forall_forall in Hb'. apply (Hb' t Ht). }
  assert (EP : peq (dc nv) P).
  { intros d. rewrite Cn, <- HS3. cbn [terms_coef]. unfold padd, pmono. rewrite dcoef_cons, Z, repeat_length, Nnat.Nat2N.id. reflexivity. }
  exists values, nv. split; [exact E|]. split; [|split; [|split; [|split]]].
  - destruct values as [|v0 tl]; [discriminate|]. cbn [length] in Lv. exists v0, tl, c. split; [reflexivity|]. split; [exact Zc|].
    intros d. specialize (Cv d). rewrite Z in Cv. rewrite Cn.
    rewrite (dcoef_cons R den c), Z, repeat_length.
    rewrite (dcoef_cons R den v0 tl) in Cv. rewrite (dcoef_cons R den (one O) tl).
    assert (Lt : length tl = n) by lia. rewrite Lt in Cv |- *.
    destruct (Nat.eqb_spec d n) as [e|].
    + rewrite e, (lw_one _ _ _ L), Tn. ring.
    + rewrite Cv. ring.
  - destruct nv as [|a q]; [discriminate|]. cbn [length] in Ln. exists a, q. split; [reflexivity|]. split; [|lia].
    destruct (is_zero O a) eqn:Ea; [|reflexivity]. apply (is_zero_den O R den L) in Ea.
    specialize (Cn n). rewrite (dcoef_cons R den a q), (dcoef_cons R den c), repeat_length, Nat.eqb_refl, Tn in Cn.
    replace (length q) with n in Cn by lia. rewrite Nat.eqb_refl, Ea in Cn. exfalso. apply Hc0. rewrite Cn. ring.
  - unfold vec_ok, len. rewrite Ln. lia.
  - exact Ln.
  - exists r1. split; [exact H10|]. intros d. rewrite pmul_k. cbn [map rprod].
    rewrite pmul_pone_l, EP. ring.
Qed.
End Find.

End RootLoop.
