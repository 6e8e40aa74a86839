(** Properties C62 (algebraic laws hold through the API) and C63 (evaluation commutes with
    arithmetic). *)

From Coq Require Import List NArith ZArith Lia Bool Arith.
From Coq Require Import ZifyBool ZifyNat ZifyN.
From Verif Require Import Base Num Spec SpecFacts Laws Terms Dense DenseFacts DenseShift Sparse SparseFacts SparseArith.
From Verif Require Import P_Dense1 P_Dense2 P_Sparse1 P_Sparse2 Wrap Expr.
Import ListNotations.

(** ** C62 *)

(** Every program of API calls that returns computes its mathematical meaning; *)
Theorem C62_dense_program : forall T (O : num T) R den, lawful O R den -> (1 <= n_max_len O)%N ->
  forall env e r, (forall i, vec_ok O (env i)) -> shifts_ok e -> drun O env e = Ok r ->
  peq (dcoef R den r) (meaning R den (fun i => dcoef R den (env i)) e).
Proof. intros T O R den L Hc env e r He Hs H. apply (drun_ok O R den L Hc env e He Hs r H). Qed.

Theorem C62_sparse_program : forall T (O : num T) R den, lawful O R den ->
  forall env dg e r, (forall i, swf (env i)) -> shifts_ok e ->
  (n_chk O = true \/ no_shift e /\ (forall i, pbound (scoef R den (env i)) (dg i)) /\ (edeg dg e <= USIZE_MAX)%N) ->
  srun O env e = Ok r ->
  swf r /\ peq (scoef R den r) (meaning R den (fun i => scoef R den (env i)) e).
Proof. intros T O R den L env dg e r He Hs Hk H. apply (srun_ok O R den L env dg e He Hs Hk r H). Qed.

(** so both representations give the same answer, *)
Theorem C62_dense_sparse_agree : forall T (O : num T) R den, lawful O R den -> (1 <= n_max_len O)%N ->
  forall denv senv dg e r s, (forall i, vec_ok O (denv i)) -> (forall i, swf (senv i)) ->
  (forall i, peq (dcoef R den (denv i)) (scoef R den (senv i))) -> shifts_ok e ->
  (n_chk O = true \/ no_shift e /\ (forall i, pbound (scoef R den (senv i)) (dg i)) /\ (edeg dg e <= USIZE_MAX)%N) ->
  drun O denv e = Ok r -> srun O senv e = Ok s -> peq (dcoef R den r) (scoef R den s).
Proof.
  intros T O R den L Hc denv senv dg e r s Hd Hw He Hs Hk H1 H2.
  eapply peq_trans; [apply (C62_dense_program _ _ _ _ L Hc denv e r Hd Hs H1)|].
  destruct (C62_sparse_program _ _ _ _ L senv dg e s Hw Hs Hk H2) as [_ P]. apply peq_sym. eapply peq_trans; [exact P|].
  clear - He. apply peq_sym. induction e as [i|upd a IHa b IHb|ref a IHa b IHb|a IHa|ref a IHa b IHb|upd a IHa c|a IHa n|a IHa|upd lft a IHa k];
    cbn [meaning]; auto using padd_ext, psub_ext, popp_ext, pmul_ext, pscale_ext, ppow_ext, pderiv_ext, pshift_ext.
Qed.

(** and two programs with the same meaning give results that compare equal. *)
Theorem C62_same_meaning_equal : forall T (O : num T) R den, lawful O R den -> (1 <= n_max_len O)%N ->
  (forall env e e' r r', (forall i, vec_ok O (env i)) -> shifts_ok e -> shifts_ok e' ->
     (forall p, peq (meaning R den p e) (meaning R den p e')) ->
     drun O env e = Ok r -> drun O env e' = Ok r' -> dense_eq O r r' = Ok true) /\
  (n_chk O = true -> forall env e e' r r', (forall i, swf (env i)) -> shifts_ok e -> shifts_ok e' ->
     (forall p, peq (meaning R den p e) (meaning R den p e')) ->
     srun O env e = Ok r -> srun O env e' = Ok r' -> sparse_eq O r r' = true).
Proof.
  intros T O R den L Hc. split.
  - intros env e e' r r' He Hs Hs' Hm H H'. destruct (C05_dense_eq _ _ _ _ L r r') as (b & -> & Hb). f_equal. apply Hb.
    eapply peq_trans; [apply (C62_dense_program _ _ _ _ L Hc env e r He Hs H)|].
    eapply peq_trans; [apply Hm|]. apply peq_sym, (C62_dense_program _ _ _ _ L Hc env e' r' He Hs' H').
  - intros K env e e' r r' He Hs Hs' Hm H H'.
    destruct (C62_sparse_program _ _ _ _ L env (fun _ => 0%N) e r He Hs (or_introl K) H) as [W P].
    destruct (C62_sparse_program _ _ _ _ L env (fun _ => 0%N) e' r' He Hs' (or_introl K) H') as [W' P'].
    apply (C05_sparse_eq _ _ _ _ L r r' W W'). eapply peq_trans; [exact P|]. eapply peq_trans; [apply Hm|]. apply peq_sym, P'.
Qed.

(** The laws of polynomial algebra and calculus.  The sub-programs [a], [b], [c] are arbitrary,
    and so are the variants of the operators. *)
Inductive law {T : Type} (O : num T) : pexpr T -> pexpr T -> Prop :=
| add_comm u v a b : law O (EAdd u a b) (EAdd v b a)
| add_assoc u1 u2 v1 v2 a b c : law O (EAdd u1 (EAdd u2 a b) c) (EAdd v1 a (EAdd v2 b c))
| sub_add u v a b : law O (EAdd u (ESub v a b) b) a
| sub_neg u v a b : law O (ESub u a b) (EAdd v a (ENeg b))
| sub_self_add u v w a b : law O (EAdd w (ESub u a a) b) (ESub v b (ESub u a a))
| neg_neg a : law O (ENeg (ENeg a)) a
| mul_comm u v a b : law O (EMul u a b) (EMul v b a)
| mul_assoc u1 u2 v1 v2 a b c : law O (EMul u1 (EMul u2 a b) c) (EMul v1 a (EMul v2 b c))
| mul_add u1 u2 v1 v2 v3 a b c : law O (EMul u1 a (EAdd u2 b c)) (EAdd v1 (EMul v2 a b) (EMul v3 a c))
| mul_sub u1 u2 v1 v2 v3 a b c : law O (EMul u1 (ESub u2 a b) c) (ESub v1 (EMul v2 a c) (EMul v3 b c))
| mul_neg u v a b : law O (EMul u (ENeg a) b) (ENeg (EMul v a b))
| scale_add u1 u2 v1 v2 v3 a b k : law O (EScale u1 (EAdd u2 a b) k) (EAdd v1 (EScale v2 a k) (EScale v3 b k))
| scale_mul u1 u2 v1 v2 a b k : law O (EScale u1 (EMul u2 a b) k) (EMul v1 a (EScale v2 b k))
| scale_scale u1 u2 v a k l m : mul O k l = Ok m -> law O (EScale u1 (EScale u2 a k) l) (EScale v a m)
| scale_one u a : law O (EScale u a (one O)) a
| pow_one a : law O (EPow a 1) a
| pow_add v a m n : law O (EPow a (m + n)) (EMul v (EPow a m) (EPow a n))
| pow_mul a m n : law O (EPow a (m * n)) (EPow (EPow a m) n)
| pow_base u v a b n : law O (EPow (EMul u a b) n) (EMul v (EPow a n) (EPow b n))
| deriv_add u v a b : law O (EDeriv (EAdd u a b)) (EAdd v (EDeriv a) (EDeriv b))
| deriv_sub u v a b : law O (EDeriv (ESub u a b)) (ESub v (EDeriv a) (EDeriv b))
| deriv_scale u v a k : law O (EDeriv (EScale u a k)) (EScale v (EDeriv a) k)
| deriv_mul u v w1 w2 a b : law O (EDeriv (EMul u a b)) (EAdd v (EMul w1 (EDeriv a) b) (EMul w2 a (EDeriv b)))
| deriv_pow u a n k : (n + 1 <= USIZE_MAX)%N -> of_exact O (n + 1) = Some k -> law O (EDeriv (EPow a (n + 1))) (EMul u (EScale u (EPow a n) k) (EDeriv a))
| shift_add u v w l a b k : law O (EShift u l (EAdd v a b) k) (EAdd w (EShift u l a k) (EShift u l b k))
| shift_mul u v w a b k : (0 <= k)%Z -> law O (EShift u true (EMul v a b) k) (EMul w (EShift u true a k) b)
| shift_shift u v w a j k : (0 <= j)%Z -> (0 <= k)%Z -> law O (EShift u true (EShift v true a j) k) (EShift w true a (j + k))
| shift_back u v a k : (0 <= k)%Z -> law O (EShift u false (EShift v true a k) k) a
| shift_flip u v l a k : law O (EShift u l a (- k)) (EShift v (negb l) a k).

Section LawFacts.
Context {R : comring}.
Add Ring R_ring : (r_theory R).
Notation "a ≡ b" := (@peq R a b) (at level 70).
Infix "*" := (@rmul R). Infix "+" := (@radd R).

Lemma pderiv_pmul (a b : poly R) : pderiv (pmul a b) ≡ padd (pmul (pderiv a) b) (pmul a (pderiv b)).
Proof.
  intros d. unfold pderiv at 1. unfold pmul at 1. rewrite <- sumn_mul_l.
  rewrite (sumn_ext _ (fun i => of_nat i * (a i * b (S d - i)%nat) + of_nat (S d - i) * (a i * b (S d - i)%nat))).
  2: { intros i Hi. replace (@of_nat R (S d)) with (@of_nat R (i + (S d - i))) by (f_equal; lia). rewrite of_nat_add. ring. }
  rewrite sumn_add. unfold padd. f_equal.
  - rewrite sumn_S_l. cbn [of_nat]. unfold pmul, pderiv.
    rewrite (sumn_ext (fun i => of_nat (S i) * (a (S i) * b (S d - S i)%nat)) (fun i => of_nat (S i) * a (S i) * b (d - i)%nat)).
    + ring.
    + intros i Hi. replace (S d - S i)%nat with (d - i)%nat by lia. ring.
  - cbn [sumn]. replace (S d - S d)%nat with O by lia. cbn [of_nat]. unfold pmul, pderiv. cbn [sumn].
    rewrite (sumn_ext (fun i => of_nat (S d - i) * (a i * b (S d - i)%nat)) (fun i => a i * (of_nat (S (d - i)) * b (S (d - i))))).
    + replace (S d - d)%nat with (S (d - d))%nat by lia. ring.
    + intros i Hi. replace (S d - i)%nat with (S (d - i))%nat by lia. ring.
Qed.

Lemma pmul_pscale_r (a b : poly R) k : pmul a (pscale b k) ≡ pscale (pmul a b) k.
Proof.
  intros d. unfold pscale, pmul. rewrite <- sumn_mul_r. apply sumn_ext. intros i _. ring.
Qed.

Lemma pmul_popp_l (a b : poly R) : pmul (popp a) b ≡ popp (pmul a b).
Proof. intros d. unfold popp, pmul. rewrite <- sumn_opp. apply sumn_ext. intros i _. ring. Qed.

Lemma ppow_mul (a : poly R) m n : ppow a (m * n) ≡ ppow (ppow a m) n.
Proof.
  induction n as [|n IH]; [rewrite Nat.mul_0_r; apply peq_refl|]. rewrite Nat.mul_succ_r, Nat.add_comm.
  eapply peq_trans; [apply ppow_add|]. cbn [ppow]. apply pmul_ext; [apply peq_refl|exact IH].
Qed.

Lemma ppow_base (a b : poly R) n : ppow (pmul a b) n ≡ pmul (ppow a n) (ppow b n).
Proof.
  induction n as [|n IH]; cbn [ppow]; [apply peq_sym, pmul_pone_l|].
  eapply peq_trans; [apply pmul_ext; [apply peq_refl|exact IH]|].
  eapply peq_trans; [apply pmul_assoc|]. eapply peq_trans; [|apply peq_sym, pmul_assoc]. apply pmul_ext; [|apply peq_refl].
  eapply peq_trans; [apply peq_sym, pmul_assoc|].
  eapply peq_trans; [apply pmul_ext; [apply peq_refl|apply pmul_comm]|]. apply pmul_assoc.
Qed.

Lemma pderiv_ppow (a : poly R) n : pderiv (ppow a (S n)) ≡ pmul (pscale (ppow a n) (of_nat (S n))) (pderiv a).
Proof.
  induction n as [|n IH].
  - eapply peq_trans; [apply pderiv_ext, ppow_1|]. eapply peq_trans; [apply peq_sym, pmul_pone_l|].
    apply pmul_ext; [|apply peq_refl]. intros d. unfold pscale. cbn [ppow of_nat]. ring.
  - cbn [ppow] in IH |- *. eapply peq_trans; [apply pderiv_pmul|].
    eapply peq_trans; [apply padd_ext; [apply peq_refl|apply pmul_ext; [apply peq_refl|exact IH]]|].
    set (q := pmul a (ppow a n)). intros d. unfold padd.
    rewrite (pmul_comm (pderiv a) q d).
    assert (E1 : pmul a (pmul (pscale (ppow a n) (of_nat (S n))) (pderiv a)) ≡ pscale (pmul q (pderiv a)) (of_nat (S n))).
    { eapply peq_trans; [apply pmul_assoc|].
      eapply peq_trans; [apply pmul_ext; [apply pmul_pscale_r|apply peq_refl]|]. fold q.
      eapply peq_trans; [apply pmul_comm|]. eapply peq_trans; [apply pmul_pscale_r|]. apply pscale_ext, pmul_comm. }
    rewrite E1.
    assert (E2 : pmul (pscale q (of_nat (S (S n)))) (pderiv a) ≡ pscale (pmul q (pderiv a)) (of_nat (S (S n)))).
    { eapply peq_trans; [apply pmul_comm|]. eapply peq_trans; [apply pmul_pscale_r|]. apply pscale_ext, pmul_comm. }
    rewrite E2. unfold pscale. cbn [of_nat]. ring.
Qed.
End LawFacts.

Section Laws.
Context {T : Type} (O : num T) (R : comring) (den : T -> car R) (L : lawful O R den).
Add Ring R_ring2 : (r_theory R).

Lemma law_meaning e e' : law O e e' -> forall p, peq (meaning R den p e) (meaning R den p e').
Proof.
  intros H p. destruct H; cbn [meaning].
  - intros d. unfold padd. ring.
  - intros d. unfold padd. ring.
  - intros d. unfold padd, psub. ring.
  - intros d. unfold padd, psub, popp. ring.
  - intros d. unfold padd, psub. ring.
  - intros d. unfold popp. ring.
  - apply pmul_comm.
  - apply peq_sym, pmul_assoc.
  - apply pmul_padd_r.
  - apply pmul_psub_l.
  - apply pmul_popp_l.
  - intros d. unfold pscale, padd. ring.
  - apply peq_sym, pmul_pscale_r.
  - intros d. unfold pscale. rewrite (lw_mul _ _ _ L _ _ _ H). ring.
  - intros d. unfold pscale. rewrite (lw_one _ _ _ L). ring.
  - apply ppow_1.
  - rewrite N2Nat.inj_add. apply ppow_add.
  - rewrite N2Nat.inj_mul. apply ppow_mul.
  - apply ppow_base.
  - intros d. unfold pderiv, padd. ring.
  - intros d. unfold pderiv, psub. ring.
  - intros d. unfold pderiv, pscale. ring.
  - apply pderiv_pmul.
  - rewrite (lw_exact _ _ _ L _ _ H H0). rewrite N2Nat.inj_add, Nat.add_1_r. apply pderiv_ppow.
  - intros d. unfold pshift, pshl, pshr, padd. destruct (0 <=? _)%Z; [destruct (Nat.ltb _ _); [ring|]|]; reflexivity.
  - unfold pshift. destruct (Z.leb_spec 0 k); [|lia]. eapply peq_trans; [apply pshl_pmul|]. eapply peq_trans; [apply pmul_assoc|].
    apply pmul_ext; [|apply peq_refl]. apply peq_sym, pshl_pmul.
  - unfold pshift. destruct (Z.leb_spec 0 k); [|lia]. destruct (Z.leb_spec 0 j); [|lia]. destruct (Z.leb_spec 0 (j + k)); [|lia].
    intros d. unfold pshl. destruct (Nat.ltb_spec d (Z.to_nat k)), (Nat.ltb_spec d (Z.to_nat (j + k))); try lia; [reflexivity| |].
    + destruct (Nat.ltb_spec (d - Z.to_nat k) (Z.to_nat j)); [reflexivity|lia].
    + destruct (Nat.ltb_spec (d - Z.to_nat k) (Z.to_nat j)); [lia|]. f_equal. lia.
  - unfold pshift. destruct (Z.leb_spec 0 k); [|lia]. intros d. destruct (Z.leb_spec 0 (- k)).
    + assert (k = 0)%Z by lia. subst k. unfold pshl. simpl. rewrite !Nat.sub_0_r. reflexivity.
    + rewrite Z.opp_involutive. unfold pshr, pshl. destruct (Nat.ltb_spec (d + Z.to_nat k) (Z.to_nat k)); [lia|]. f_equal. lia.
  - unfold pshift. destruct l; cbn [negb]; rewrite ?Z.opp_involutive; apply peq_refl.
Qed.
End Laws.

(** All these laws hold for every coefficient type whose operations agree with a ring when they
    return, in both representations, whatever the operands. *)
Theorem C62_laws : forall T (O : num T) R den, lawful O R den -> (1 <= n_max_len O)%N ->
  forall e e', law O e e' -> shifts_ok e -> shifts_ok e' ->
  (forall env r r', (forall i, vec_ok O (env i)) -> drun O env e = Ok r -> drun O env e' = Ok r' -> dense_eq O r r' = Ok true) /\
  (n_chk O = true -> forall env r r', (forall i, swf (env i)) -> srun O env e = Ok r -> srun O env e' = Ok r' -> sparse_eq O r r' = true).
Proof.
  intros T O R den L Hc e e' Hl Hs Hs'. destruct (C62_same_meaning_equal T O R den L Hc) as [D S].
  pose proof (law_meaning O R den L e e' Hl) as Hm. split.
  - intros env r r' He H H'. exact (D env e e' r r' He Hs Hs' Hm H H').
  - intros K env r r' He H H'. exact (S K env e e' r r' He Hs Hs' Hm H H').
Qed.

(** In particular for every integer type, with and without overflow checks. *)
Theorem C62_int_laws : forall chk t e e', law (int_num chk t) e e' -> shifts_ok e -> shifts_ok e' ->
  forall env r r', (forall i, vec_ok (int_num chk t) (env i)) ->
  drun (int_num chk t) env e = Ok r -> drun (int_num chk t) env e' = Ok r' -> dense_eq (int_num chk t) r r' = Ok true.
Proof.
  intros chk t e e' Hl Hs Hs'.
  assert (Hc : (1 <= n_max_len (int_num chk t))%N) by (destruct t; vm_compute; discriminate).
  destruct chk.
  - apply (C62_laws _ _ _ _ (checked_lawful t) Hc e e' Hl Hs Hs').
  - apply (C62_laws _ _ _ _ (wrapping_lawful t) Hc e e' Hl Hs Hs').
Qed.

Example C62_case : let O := int_num true I16 in let v i := EVar i in
  let env i := map (mk_int I16) (match i with 0%nat => [2; -3]%Z | 1%nat => [1; 0; 4]%Z | _ => [-1; 1]%Z end) in
  law O (EDeriv (EMul true (v 0%nat) (v 1%nat))) (EAdd false (EMul true (EDeriv (v 0%nat)) (v 1%nat)) (EMul false (v 0%nat) (EDeriv (v 1%nat)))) /\
  rmap (map ival) (drun O env (EDeriv (EMul true (v 0%nat) (v 1%nat)))) = Ok [6; -6; 8]%Z /\
  rmap (map ival) (drun O env (EAdd false (EMul true (EDeriv (v 0%nat)) (v 1%nat)) (EMul false (v 0%nat) (EDeriv (v 1%nat))))) = Ok [6; -6; 8]%Z /\
  rmap (map ival) (drun O env (EPow (EMul true (v 0%nat) (v 2%nat)) 3)) = Ok [-8; 60; -186; 305; -279; 135; -27]%Z.
Proof. cbv zeta. split; [constructor|]. repeat split; vm_compute; reflexivity. Qed.

(** Rounding breaks them for floats. *)

(** ** C63 *)

(** Evaluating the result of a program equals computing with the values of its operands. *)
Theorem C63_eval_program : forall T (O : num T) R den, lawful O R den -> (1 <= n_max_len O)%N ->
  forall env vals e x v, (forall i, vec_ok O (env i)) -> shifts_ok e ->
  (forall i, dense_eval O (env i) x = Ok (vals i)) ->
  value_of R den (den x) (fun i => den (vals i)) e = Some v ->
  forall r y, drun O env e = Ok r -> dense_eval O r x = Ok y -> den y = v.
Proof.
  intros T O R den L Hc env vals e x v He Hs Hv Hval r y Hr Hy.
  apply (is_value_fun (dcoef R den r) (den x)).
  - apply (C12_dense_eval _ _ _ _ L). exact Hy.
  - eapply is_value_ext; [apply peq_sym, (C62_dense_program _ _ _ _ L Hc env e r He Hs Hr)|].
    eapply meaning_value; [|exact Hval]. intros i. apply (C12_dense_eval _ _ _ _ L). apply Hv.
Qed.

(** The same for sparse polynomials with exponents below 2^32 (see C51 for the others). *)
Theorem C63_eval_sparse_program : forall T (O : num T) R den, lawful O R den -> n_chk O = true ->
  forall env vals e x v, (forall i, swf (env i)) -> (forall i, Forall (fun kv => (fst kv < 2 ^ 32)%N) (env i)) -> shifts_ok e ->
  (forall i, sparse_eval O (env i) x = Ok (vals i)) ->
  value_of R den (den x) (fun i => den (vals i)) e = Some v ->
  forall r y, srun O env e = Ok r -> Forall (fun kv => (fst kv < 2 ^ 32)%N) r -> sparse_eval O r x = Ok y -> den y = v.
Proof.
  intros T O R den L K env vals e x v He Hk Hs Hv Hval r y Hr Hkr Hy.
  apply (is_value_fun (scoef R den r) (den x)).
  - apply (C12_sparse_eval _ _ _ _ L); assumption.
  - destruct (C62_sparse_program _ _ _ _ L env (fun _ => 0%N) e r He Hs (or_introl K) Hr) as [_ P].
    eapply is_value_ext; [apply peq_sym, P|].
    eapply meaning_value; [|exact Hval]. intros i. apply (C12_sparse_eval _ _ _ _ L); auto.
Qed.

(** ** Wrapping integers *)
Section Wrapping.
Context (t : ity).
Notation W := (w_ring t).

Lemma meaning_wred env env' (e : pexpr (int t)) : (forall i, peq (env' i) (wred t (env i))) ->
  peq (meaning W (fun a => a) env' e) (wred t (meaning Z_ring ival env e)).
Proof.
  intros He. induction e as [i|upd a IHa b IHb|ref a IHa b IHb|a IHa|ref a IHa b IHb|upd a IHa c|a IHa n|a IHa|upd lft a IHa k]; cbn [meaning].
  - apply He.
  - eapply peq_trans; [apply padd_ext; eassumption|]. apply peq_sym, wred_padd.
  - eapply peq_trans; [apply psub_ext; eassumption|]. apply peq_sym, wred_psub.
  - eapply peq_trans; [apply popp_ext; eassumption|]. apply peq_sym, wred_popp.
  - eapply peq_trans; [apply pmul_ext; eassumption|]. apply peq_sym, wred_pmul.
  - eapply peq_trans; [apply pscale_ext; eassumption|]. apply peq_sym. eapply peq_trans; [apply wred_pscale|].
    rewrite mk_int_ival. apply peq_refl.
  - eapply peq_trans; [apply ppow_ext; eassumption|]. apply peq_sym, wred_ppow.
  - eapply peq_trans; [apply pderiv_ext; eassumption|]. apply peq_sym, wred_pderiv.
  - eapply peq_trans; [apply pshift_ext; eassumption|]. intros d. unfold pshift, pshl, pshr, wred.
    destruct (0 <=? _)%Z; [destruct (Nat.ltb _ _)|]; reflexivity.
Qed.

Lemma value_wred (x : Z) vals vals' (e : pexpr (int t)) : (forall i, vals' i = mk_int t (vals i)) ->
  value_of W (fun a => a) (mk_int t x) vals' e = option_map (mk_int t) (value_of Z_ring ival x vals e).
Proof.
  intros He. induction e as [i|upd a IHa b IHb|ref a IHa b IHb|a IHa|ref a IHa b IHb|upd a IHa c|a IHa n|a IHa|upd lft a IHa k]; cbn [value_of].
  - rewrite He. reflexivity.
  - rewrite IHa, IHb. destruct (value_of Z_ring ival x vals a), (value_of Z_ring ival x vals b); cbn [option_map]; try reflexivity.
    f_equal. symmetry. apply wadd_hom.
  - rewrite IHa, IHb. destruct (value_of Z_ring ival x vals a), (value_of Z_ring ival x vals b); cbn [option_map]; try reflexivity.
    f_equal. symmetry. apply wsub_hom.
  - rewrite IHa. destruct (value_of Z_ring ival x vals a); cbn [option_map]; try reflexivity. f_equal. symmetry. apply wopp_hom.
  - rewrite IHa, IHb. destruct (value_of Z_ring ival x vals a), (value_of Z_ring ival x vals b); cbn [option_map]; try reflexivity.
    f_equal. symmetry. apply wmul_hom.
  - rewrite IHa. destruct (value_of Z_ring ival x vals a) as [z|]; cbn [option_map]; try reflexivity. f_equal.
    symmetry. etransitivity; [apply wmul_hom|]. rewrite mk_int_ival. reflexivity.
  - rewrite IHa. destruct (value_of Z_ring ival x vals a) as [z|]; cbn [option_map]; try reflexivity. f_equal. symmetry. apply rpow_hom.
  - reflexivity.
  - destruct (0 <=? _)%Z; [|reflexivity]. rewrite IHa. destruct (value_of Z_ring ival x vals a) as [z|]; cbn [option_map]; try reflexivity.
    f_equal. symmetry. etransitivity; [apply wmul_hom|]. rewrite rpow_hom. reflexivity.
Qed.
End Wrapping.

(** Without overflow checks a program computes the exact integer result reduced modulo 2^bits:
    wrapping in between does no further harm. *)
Theorem C62_int_wrapping_program : forall t env e r, (forall i, vec_ok (int_num false t) (env i)) -> shifts_ok e ->
  drun (int_num false t) env e = Ok r ->
  forall d, dcoef Z_ring ival r d = wrap t (meaning Z_ring ival (fun i => dcoef Z_ring ival (env i)) e d).
Proof.
  intros t env e r He Hs H. apply wred_result.
  assert (Hc : (1 <= n_max_len (int_num false t))%N) by (destruct t; vm_compute; discriminate).
  eapply peq_trans; [apply (C62_dense_program _ _ _ _ (wrapping_lawful t) Hc env e r He Hs H)|].
  apply meaning_wred. intros i. apply dcoef_wred.
Qed.

Theorem C63_eval_int_wrapping : forall t env vals e x (v : Z), (forall i, vec_ok (int_num false t) (env i)) -> shifts_ok e ->
  (forall i, @is_value Z_ring (dcoef Z_ring ival (env i)) (ival x) (vals i)) ->
  value_of Z_ring ival (ival x) vals e = Some v ->
  forall r, drun (int_num false t) env e = Ok r ->
  exists y, dense_eval (int_num false t) r x = Ok y /\ ival y = wrap t v.
Proof.
  intros t env vals e x v He Hs Hv Hval r H.
  destruct (C12_dense_eval_returns _ (int_num false t) (wrapping_total t) r x) as (y & Hy). exists y. split; [exact Hy|].
  assert (Hc : (1 <= n_max_len (int_num false t))%N) by (destruct t; vm_compute; discriminate).
  assert (E : forall i, exists w, dense_eval (int_num false t) (env i) x = Ok w /\ w = mk_int t (vals i)).
  { intros i. destruct (C12_dense_eval_int_wrapping t (env i) x (vals i) (Hv i)) as (w & H1 & H2). exists w. split; [exact H1|].
    apply int_eq. rewrite H2. reflexivity. }
  assert (K : y = mk_int t v).
  { refine (C63_eval_program _ _ _ _ (wrapping_lawful t) Hc env (fun i => mk_int t (vals i)) e x _ He Hs _ _ r y H Hy).
    - intros i. destruct (E i) as (w & H1 & ->). exact H1.
    - pose proof (value_wred t (ival x) vals (fun i => mk_int t (vals i)) e (fun i => eq_refl)) as V.
      rewrite mk_int_ival in V. etransitivity; [exact V|]. rewrite Hval. reflexivity. }
  rewrite K. reflexivity.
Qed.

Example C63_case : let O := int_num true I32 in
  let env i := map (mk_int I32) (match i with 0%nat => [2; -3]%Z | _ => [1; 0; 4]%Z end) in
  let e := EMul true (EPow (EVar 0) 3) (ESub false (EVar 1) (EShift true true (EVar 0) 2)) in
  rmap ival (dense_eval O (env 0%nat) (mk_int I32 5)) = Ok 7%Z /\
  rmap ival (dense_eval O (env 1%nat) (mk_int I32 5)) = Ok 29%Z /\
  value_of Z_ring ival 5%Z (fun i => match i with 0%nat => 7 | _ => 29 end)%Z e = Some (7 ^ 3 * (29 - 5 ^ 2 * 7))%Z /\
  rmap ival (r <- drun O env e ;; dense_eval O r (mk_int I32 5)) = Ok (-50078)%Z.
Proof. cbv zeta. repeat split; vm_compute; reflexivity. Qed.

Print Assumptions C62_laws.
Print Assumptions C62_int_wrapping_program.
Print Assumptions C63_eval_program.
Print Assumptions C63_eval_int_wrapping.
