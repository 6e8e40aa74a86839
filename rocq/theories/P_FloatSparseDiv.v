(** Property C96: division of sparse float polynomials. *)

From Coq Require Import List NArith ZArith Reals Lia Lra Bool Arith Sorted.
From Coq Require Import ZifyBool ZifyNat ZifyN.
From Flocq Require Import Core BinarySingleNaN.
From Verif Require Import Base Num Spec Laws Terms Dense Sparse SparseFacts SparseArith Coef Floats FloatCoef P_Struct P_FloatDivErr.
Import ListNotations.
Local Open Scope nat_scope.

(** ** Specification *)

(** What is left of the leading coefficient [c] after [i] rounds of subtracting [l * (c / l)], each
    operation rounded. *)
Fixpoint residue {f} (l : flt f) (i : nat) (c : flt f) : flt f :=
  match i with 0 => c | S i => residue l i (fsub c (fmul l (fdiv c l))) end.

(** The quotients of the rounds, added up with rounding. *)
Fixpoint quotients {f} (l : flt f) (i : nat) (c q : flt f) : flt f :=
  match i with 0 => q | S i => quotients l i (fsub c (fmul l (fdiv c l))) (fadd q (fdiv c l)) end.

(** ** Lemmas *)
Section FS.
Context (chk : bool) (f : fty) (powi : flt f -> N -> flt f).
Notation O := (float_num chk f powi).
Implicit Types p d m r rem : bmap (flt f).

Notation nz x := (feqb x (fzero f) = false).
Notation zr x := (feqb x (fzero f) = true).

Lemma fold_upsert_swf (none : flt f -> flt f) (some : flt f -> flt f -> flt f) es : Forall (fun kv => (fst kv <= USIZE_MAX)%N) es -> forall m r, swf m ->
  foldM (fun m kv => m_upsert m (fst kv) (Ok (none (snd kv))) (fun v => Ok (some v (snd kv)))) m es = Ok r -> swf r.
Proof.
  induction es as [|[k v] es IH]; intros He m r Hm H; [injection H as <-; exact Hm|]. inversion He as [|? ? Hk He']; subst. cbn [foldM fst snd] in H.
  destruct (m_upsert m k (Ok (none v)) (fun w => Ok (some w v))) as [m1| |] eqn:E; cbn [bind] in H; try discriminate H.
  apply (IH He' m1 r); [|exact H]. eapply upsert_wf; [exact Hm| |exact E]. exact Hk.
Qed.

Lemma sub_scale_get rem d s : swf rem -> swf d -> exists r, map_sub_w_scale O rem d s = Ok r /\ swf r /\
  forall k, m_get k r = match m_get k d with
                        | None => m_get k rem
                        | Some v => Some (match m_get k rem with None => fmul (fneg v) s | Some w => fsub w (fmul v s) end) end.
Proof.
  intros Hr Hd. destruct (upsert_fold f (fun v => fmul (fneg v) s) (fun w v => fsub w (fmul v s)) d (sorted_nodup d (proj1 Hd)) rem) as (r & E & H).
  exists r. split; [exact E|]. split; [|exact H]. refine (fold_upsert_swf (fun v => fmul (fneg v) s) (fun w v => fsub w (fmul v s)) d (proj2 Hd) rem r Hr E).
Qed.

Lemma first_of m : swf m ->
  match sparse_first_term O m with
  | ZeroTerm => forall k v, m_get k m = Some v -> zr v
  | TTerm c n => m_get n m = Some c /\ nz c /\ forall k v, (n < k)%N -> m_get k m = Some v -> zr v
  end.
Proof.
  intros Hm. pose proof (sparse_has_degree O eq_refl m Hm) as H. unfold sparse_first_term. destruct (sparse_degree O m) as [|n]; cbn [has_degree] in H.
  - intros k v Hk. specialize (H (N.to_nat k)). rewrite spol_get, Hk in H. exact H.
  - destruct H as [H1 H2]. rewrite spol_get in H1. destruct (m_get n m) as [c|] eqn:E; [|cbn in H1; destruct f; discriminate H1].
    unfold term_new. rewrite H1. split; [exact E|]. split; [exact H1|]. intros k v Hk Hv. specialize (H2 (N.to_nat k)). rewrite spol_get, Hv in H2. apply H2. lia.
Qed.
Lemma first_above m k c : swf m -> m_get k m = Some c -> nz c -> exists c' n, sparse_first_term O m = TTerm c' n /\ (k <= n)%N.
Proof.
  intros Hm Hk Hc. pose proof (first_of m Hm) as H. destruct (sparse_first_term O m) as [|c' n].
  - rewrite (H k c Hk) in Hc. discriminate.
  - destruct H as (_ & _ & H). exists c', n. split; [reflexivity|]. destruct (N.le_gt_cases k n) as [K|K]; [exact K|]. rewrite (H k c K Hk) in Hc. discriminate.
Qed.
Lemma first_is m k c : swf m -> m_get k m = Some c -> nz c -> (forall j v, (k < j)%N -> m_get j m = Some v -> zr v) -> sparse_first_term O m = TTerm c k.
Proof.
  intros Hm Hk Hc Hz. pose proof (first_of m Hm) as H. destruct (sparse_first_term O m) as [|c' n].
  - rewrite (H k c Hk) in Hc. discriminate.
  - destruct H as (H1 & H2 & H3). destruct (N.lt_trichotomy k n) as [K|[->|K]].
    + rewrite (Hz n c' K H1) in H2. discriminate.
    + rewrite H1 in Hk. injection Hk as ->. reflexivity.
    + rewrite (H3 k c K Hk) in Hc. discriminate.
Qed.

Lemma add_term_ok m s k : exists r, sparse_add_term O m s k = Ok r.
Proof. unfold sparse_add_term, m_upsert. cbn [add float_num is_zero]. destruct (feqb s (fzero f)), (m_get k m); cbn; eauto. Qed.

Lemma nz_sub_zero (c v s : flt f) : nz c -> zr v -> nz (fsub c (fmul v s)).
Proof.
  intros Hc Hv. apply feqb_zero in Hv. destruct Hv as (b & ->).
  destruct s as [t|t| |t m e H]; destruct c as [u|[]| |[] n g G]; try discriminate Hc; reflexivity.
Qed.
Lemma zr_sub_zero (c v s : flt f) : zr c -> zr v -> is_finite s = true -> zr (fsub c (fmul v s)).
Proof.
  intros Hc Hv Hs. apply feqb_zero in Hc, Hv. destruct Hc as (a & ->), Hv as (b & ->). apply feqb_zero.
  destruct s as [t|t| |t m e H]; try discriminate Hs; cbn; destruct a, b, t; eexists; reflexivity.
Qed.
Lemma fmul_neg_l (a b : flt f) : fmul (fneg a) b = fneg (fmul a b).
Proof.
  assert (G : is_finite a = true -> is_finite b = true -> fmul (fneg a) b = fneg (fmul a b)).
  { intros Ha Hb. pose proof (Bmult_correct _ _ _ _ mode_NE a b) as K1. pose proof (Bmult_correct _ _ _ _ mode_NE (fneg a) b) as K2.
    assert (E : B2R (fneg a) = (- B2R a)%R) by apply B2R_Bopp. rewrite E in K2. rewrite Ropp_mult_distr_l_reverse in K2.
    assert (F : is_finite (fneg a) = true) by (destruct a; exact Ha). rewrite Ha, Hb in K1. rewrite F, Hb in K2.
    assert (N : forall x, is_finite x = true -> @is_nan (fprec f) (femax f) x = false) by (intros [| | |]; cbn; congruence).
    assert (S : Bsign (fneg a) = negb (Bsign a)) by (destruct a; try discriminate Ha; reflexivity).
    rewrite round_NE_opp, Rabs_Ropp in K2. unfold fmul. destruct (Rlt_bool _ _).
    - destruct K1 as (A1 & A2 & A3), K2 as (B1 & B2 & B3). apply B2R_Bsign_inj; [exact B2|unfold fneg; rewrite is_finite_Bopp; exact A2| |].
      + rewrite B1. unfold fneg. rewrite B2R_Bopp, A1. reflexivity.
      + etransitivity; [apply B3, N, B2|]. unfold fneg at 2. rewrite Bsign_Bopp by (apply N, A2). rewrite (A3 (N _ A2)), S.
        destruct (Bsign a), (Bsign b); reflexivity.
    - apply B2SF_inj. etransitivity; [exact K2|]. rewrite S. destruct (Bmult mode_NE a b) as [t|t| |t m e H]; cbn in K1; try discriminate K1.
      injection K1 as ->. cbn. destruct (Bsign a), (Bsign b); reflexivity. }
  destruct (is_finite a) eqn:Ha, (is_finite b) eqn:Hb; [apply G; reflexivity| | |]; clear G.
  all: destruct a as [s|s| |s m e H]; try discriminate Ha; destruct b as [t|t| |t m' e' H']; try discriminate Hb; try reflexivity;
    unfold fmul, fneg; cbn; destruct s, t; reflexivity.
Qed.
Lemma zr_mul_neg (v s : flt f) : zr v -> is_finite s = true -> zr (fmul (fneg v) s).
Proof.
  intros Hv Hs. apply feqb_zero in Hv. destruct Hv as (b & ->). apply feqb_zero. destruct s as [t|t| |t m e H]; try discriminate Hs; eexists; reflexivity.
Qed.
Lemma fsub_zr (c z : flt f) : nz c -> zr z -> fsub c z = c.
Proof. intros Hc Hz. apply feqb_zero in Hz. destruct Hz as (b & ->). destruct c as [u|u| |u n g G]; try discriminate Hc; reflexivity. Qed.
Lemma fmul_zr (c z : flt f) : is_finite c = true -> zr z -> zr (fmul c z).
Proof. intros Hc Hz. apply feqb_zero in Hz. destruct Hz as (b & ->). apply feqb_zero. destruct c as [u|u| |u n g G]; try discriminate Hc; eexists; reflexivity. Qed.

(** *** A dividend of larger degree *)
Section Loop.
Context (d : bmap (flt f)) (l : flt f) (k : N) (Hd : swf d) (Hl : m_get k d = Some l) (Nl : nz l) (Za : forall j v, (k < j)%N -> m_get j d = Some v -> zr v).

Lemma high_step rem s n c : swf rem -> (k < n)%N -> m_get n rem = Some c -> nz c ->
  exists rem' c', map_sub_w_scale O rem d s = Ok rem' /\ swf rem' /\ m_get n rem' = Some c' /\ nz c'.
Proof.
  intros Hr Hn Hg Hc. destruct (sub_scale_get rem d s Hr Hd) as (r & E & W & G). specialize (G n). rewrite Hg in G.
  destruct (m_get n d) as [v|] eqn:Ev; eexists; eexists; (split; [exact E|]); (split; [exact W|]); (split; [exact G|]); [|exact Hc].
  apply nz_sub_zero; [exact Hc|apply (Za n v Hn Ev)].
Qed.
Lemma high_loop n fuel : (k < n)%N -> forall rem c, swf rem -> m_get n rem = Some c -> nz c -> forall s e, (k < e)%N ->
  sparse_rem_loop O fuel d l k s e rem = Fuel /\ forall off dv, sparse_div_loop O fuel d l k off s e rem dv = Fuel.
Proof.
  intros Hn. induction fuel as [|fuel IH]; intros rem c Hr Hg Hc s e He; [split; reflexivity|].
  destruct (high_step rem s n c Hr Hn Hg Hc) as (rem' & c' & E & W & G & N'). destruct (first_above rem' n c' W G N') as (c2 & n2 & F & Hn2).
  cbn [sparse_rem_loop sparse_div_loop]. destruct (N.leb_spec k e) as [_|K]; [|lia]. rewrite E. cbn [bind]. rewrite F. cbn [div float_num bind].
  split; [apply (IH rem' c' W G N'); lia|]. intros off dv. destruct (add_term_ok dv s off) as (dv' & ->). cbn [bind].
  apply (IH rem' c' W G N'); lia.
Qed.

(** *** A dividend of the same degree *)
Lemma even_step rem s c : swf rem -> is_finite s = true -> m_get k rem = Some c -> (forall j v, (k < j)%N -> m_get j rem = Some v -> zr v) ->
  exists rem', map_sub_w_scale O rem d s = Ok rem' /\ swf rem' /\ m_get k rem' = Some (fsub c (fmul l s)) /\
    (forall j v, (k < j)%N -> m_get j rem' = Some v -> zr v) /\
    forall j, fsame (sget f rem' j) (fsub (sget f rem j) (fmul (sget f d j) s)).
Proof.
  intros Hr Hs Hg Hz. destruct (sub_scale_get rem d s Hr Hd) as (r & E & W & G). exists r. split; [exact E|]. split; [exact W|]. split; [|split].
  - rewrite G, Hl, Hg. reflexivity.
  - intros j v Hj Hv. rewrite G in Hv. destruct (m_get j d) as [w|] eqn:Ew; [|apply (Hz j v Hj Hv)]. specialize (Za j w Hj Ew).
    destruct (m_get j rem) as [u|] eqn:Eu; injection Hv as <-; [apply zr_sub_zero; [apply (Hz j u Hj Eu)|exact Za|exact Hs]|apply zr_mul_neg; assumption].
  - intros j. unfold sget. rewrite G. destruct (m_get j d) as [w|]; destruct (m_get j rem) as [u|]; try apply fsame_refl.
    + assert (K : fmul (fneg w) s = fneg (fmul w s)).
      { apply fmul_neg_l. }
      rewrite K. apply fsub_zero_l.
    + assert (K : exists t, fmul (fzero f) s = B754_zero t) by (destruct s as [t|t| |t m e H]; try discriminate Hs; eexists; reflexivity).
      destruct K as (t & ->). apply fsub_zero_r.
    + assert (K : exists t, fmul (fzero f) s = B754_zero t) by (destruct s as [t|t| |t m e H]; try discriminate Hs; eexists; reflexivity).
      destruct K as (t & ->). apply fsub_zero_r.
Qed.

Definition level rem c := swf rem /\ m_get k rem = Some c /\ forall j v, (k < j)%N -> m_get j rem = Some v -> zr v.

Lemma level_low rem c : level rem c -> zr c -> (forall j v, (k <= j)%N -> m_get j rem = Some v -> zr v) /\
  match sparse_first_term O rem with ZeroTerm => True | TTerm _ n => (n < k)%N end.
Proof.
  intros (W & G & Z) Hc. assert (A : forall j v, (k <= j)%N -> m_get j rem = Some v -> zr v).
  { intros j v Hj Hv. destruct (N.eq_dec j k) as [->|K]; [congruence|]. apply (Z j v); [lia|exact Hv]. }
  split; [exact A|]. pose proof (first_of rem W) as H. destruct (sparse_first_term O rem) as [|c' n]; [exact I|].
  destruct H as (H1 & H2 & _). destruct (N.lt_ge_cases n k) as [K|K]; [exact K|]. rewrite (A n c' K H1) in H2. discriminate.
Qed.

Lemma level_step rem c : level rem c -> is_finite (fdiv c l) = true -> exists rem', map_sub_w_scale O rem d (fdiv c l) = Ok rem' /\
  level rem' (fsub c (fmul l (fdiv c l))) /\ forall j, fsame (sget f rem' j) (fsub (sget f rem j) (fmul (sget f d j) (fdiv c l))).
Proof.
  intros (W & G & Z) Hs. destruct (even_step rem (fdiv c l) c W Hs G Z) as (r & E & W' & G' & Z' & C). exists r. repeat split; try assumption; apply W'.
Qed.

Lemma loop_runs fuel : forall rem c, level rem c ->
  (forall i, i <= fuel -> is_finite (fdiv (residue l i c) l) = true) -> (forall i, i <= fuel -> nz (residue l i c)) ->
  sparse_rem_loop O fuel d l k (fdiv c l) k rem = Fuel /\ forall off dv, sparse_div_loop O fuel d l k off (fdiv c l) k rem dv = Fuel.
Proof.
  induction fuel as [|fuel IH]; intros rem c Hl0 HF HN; [split; reflexivity|].
  destruct (level_step rem c Hl0 (HF 0 ltac:(lia))) as (rem' & E & L' & _). pose proof L' as (W & G & Z). 
  pose proof (HN 1 ltac:(lia)) as N1. cbn [residue] in N1. pose proof (first_is rem' k _ W G N1 Z) as F.
  cbn [sparse_rem_loop sparse_div_loop]. rewrite N.leb_refl, E. cbn [bind]. rewrite F. cbn [div float_num bind].
  destruct (IH rem' _ L') as [I1 I2].
  { intros i Hi. apply (HF (S i)). lia. }
  { intros i Hi. apply (HN (S i)). lia. }
  split; [exact I1|]. intros off dv. destruct (add_term_ok dv (fdiv c l) off) as (dv' & ->). cbn [bind]. apply I2.
Qed.

Lemma stuck c i : is_finite l = true -> nz c -> zr (fdiv c l) -> residue l i c = c.
Proof.
  intros Fl Nc Zs. induction i as [|i IH]; [reflexivity|]. cbn [residue]. rewrite fsub_zr; [exact IH|exact Nc|apply fmul_zr; assumption].
Qed.

Definition dv_add (dv : option (flt f)) (s : flt f) : flt f := match dv with None => s | Some q => fadd q s end.
Definition dv_map (dv : option (flt f)) : bmap (flt f) := match dv with None => [] | Some q => [(0%N, q)] end.
Lemma dv_step dv s : nz s -> sparse_add_term O (dv_map dv) s 0 = Ok (dv_map (Some (dv_add dv s))).
Proof. intros Hs. unfold sparse_add_term. cbn [is_zero float_num]. rewrite Hs. destruct dv; reflexivity. Qed.

Lemma loop_ends n (Fl : is_finite l = true) : forall rem c dv fuel, level rem c ->
  (forall i, i <= n -> is_finite (fdiv (residue l i c) l) = true) -> (forall i, i <= n -> nz (residue l i c)) -> zr (residue l (S n) c) ->
  n + 2 <= fuel ->
  exists r, sparse_rem_loop O fuel d l k (fdiv c l) k rem = Ok r /\
    sparse_div_loop O fuel d l k 0 (fdiv c l) k rem (dv_map dv) = Ok ([(0%N, quotients l n (fsub c (fmul l (fdiv c l))) (dv_add dv (fdiv c l)))], r) /\
    (forall j v, (k <= j)%N -> m_get j r = Some v -> zr v) /\
    (n = 0 -> forall j, fsame (sget f r j) (fsub (sget f rem j) (fmul (sget f d j) (fdiv c l)))).
Proof.
  induction n as [|n IH]; intros rem c dv fuel Hl0 HF HN HZ Hfu.
  all: assert (Ns : nz (fdiv c l)) by
    (destruct (feqb (fdiv c l) (fzero f)) eqn:K; [|reflexivity]; rewrite (stuck c _ Fl (HN 0 ltac:(lia)) K) in HZ; specialize (HN 0 ltac:(lia)); cbn in HN; congruence).
  all: destruct (level_step rem c Hl0 (HF 0 ltac:(lia))) as (rem' & E & L' & C).
  all: destruct fuel as [|fuel]; [lia|]; cbn [sparse_rem_loop sparse_div_loop]; rewrite N.leb_refl, E; cbn [bind]; rewrite (dv_step dv _ Ns); cbn [bind].
  - cbn [residue] in HZ. destruct (level_low rem' _ L' HZ) as [A B]. exists rem'. destruct (sparse_first_term O rem') as [|c' m] eqn:F.
    + repeat split; try reflexivity; [exact A|]. intros _. exact C.
    + cbn [div float_num bind]. destruct fuel as [|fuel]; [lia|]. cbn [sparse_rem_loop sparse_div_loop].
      destruct (N.leb_spec k m) as [K|_]; [lia|]. repeat split; try reflexivity; [exact A|]. intros _. exact C.
  - pose proof (HN 1 ltac:(lia)) as N1. cbn [residue] in N1. pose proof L' as (W & G & Z). rewrite (first_is rem' k _ W G N1 Z). cbn [div float_num bind].
    destruct (IH rem' _ (Some (dv_add dv (fdiv c l))) fuel L') as (r & E1 & E2 & A & _).
    + intros i Hi. apply (HF (S i)). lia.
    + intros i Hi. apply (HN (S i)). lia.
    + exact HZ.
    + lia.
    + exists r. split; [exact E1|]. split; [exact E2|]. split; [exact A|]. discriminate.
Qed.
End Loop.
End FS.

Section Degree.
Context (chk : bool) (f : fty) (powi : flt f -> N -> flt f).
Notation O := (float_num chk f powi).

Lemma degree_get (m : bmap (flt f)) n : has_degree O (spol O m) (Num n) ->
  let c := spol O m (N.to_nat n) in m_get n m = Some c /\ feqb c (fzero f) = false /\
  forall j v, (n < j)%N -> m_get j m = Some v -> feqb v (fzero f) = true.
Proof.
  intros [H1 H2] c. unfold c. rewrite spol_get in *. split; [|split; [exact H1|]].
  - destruct (m_get n m) as [v|]; [reflexivity|]. cbn in H1. destruct f; discriminate H1.
  - intros j v Hj Hv. specialize (H2 (N.to_nat j) ltac:(lia)). rewrite spol_get, Hv in H2. exact H2.
Qed.
Lemma degree_first (m : bmap (flt f)) n : swf m -> has_degree O (spol O m) (Num n) -> sparse_first_term O m = TTerm (spol O m (N.to_nat n)) n.
Proof. intros W H. destruct (degree_get m n H) as (A & B & C). apply first_is; assumption. Qed.
Lemma degree_first_zero (m : bmap (flt f)) : swf m -> has_degree O (spol O m) NegInf -> sparse_first_term O m = ZeroTerm.
Proof.
  intros W H. pose proof (first_of chk f powi m W) as K. destruct (sparse_first_term O m) as [|c n]; [reflexivity|].
  destruct K as (K1 & K2 & _). specialize (H (N.to_nat n)). rewrite spol_get, K1 in H. cbn in H. congruence.
Qed.
Lemma spol_sget (m : bmap (flt f)) j : spol O m j = sget f m (N.of_nat j).
Proof. reflexivity. Qed.
End Degree.

(** ** Theorems *)

(** A zero divisor panics; a dividend of smaller degree is returned as it is. *)
Theorem C96_small : forall chk f powi fuel (p d : bmap (flt f)), let O := float_num chk f powi in swf p -> swf d ->
  (has_degree O (spol O d) NegInf -> sparse_div_mod O fuel p d = Panic PZeroPoly /\ sparse_rem O fuel p d = Panic PZeroPoly) /\
  (forall n k, has_degree O (spol O d) (Num k) -> has_degree O (spol O p) n -> n = NegInf \/ (exists m, n = Num m /\ (m < k)%N) ->
     sparse_div_mod O fuel p d = Ok ([], p) /\ sparse_rem O fuel p d = Ok p).
Proof.
  intros chk f powi fuel p d O Hp Hd. unfold sparse_div_mod, sparse_rem, O. split.
  - intros H. rewrite (degree_first_zero chk f powi d Hd H). split; reflexivity.
  - intros n k Hk Hn Hlt. rewrite (degree_first chk f powi d k Hd Hk). destruct Hlt as [->|(m & -> & Hlt)].
    + rewrite (degree_first_zero chk f powi p Hp Hn). split; reflexivity.
    + rewrite (degree_first chk f powi p m Hp Hn). destruct (N.ltb_spec m k) as [_|K]; [split; reflexivity|lia].
Qed.

(** A dividend of larger degree: neither div_mod nor % ever returns, whatever the coefficients. *)
Theorem C96_large : forall chk f powi fuel (p d : bmap (flt f)) n k, let O := float_num chk f powi in swf p -> swf d ->
  has_degree O (spol O p) (Num n) -> has_degree O (spol O d) (Num k) -> (k < n)%N ->
  sparse_div_mod O fuel p d = Fuel /\ sparse_rem O fuel p d = Fuel.
Proof.
  intros chk f powi fuel p d n k O Hp Hd Hn Hk Hlt. unfold sparse_div_mod, sparse_rem.
  unfold O. rewrite (degree_first chk f powi d k Hd Hk), (degree_first chk f powi p n Hp Hn).
  destruct (N.ltb_spec n k) as [K|_]; [lia|]. cbn [div float_num bind]. rewrite usub_le by lia. cbn [bind].
  destruct (degree_get chk f powi d k Hk) as (D1 & D2 & D3). destruct (degree_get chk f powi p n Hn) as (P1 & P2 & P3).
  split; apply (high_loop chk f powi d _ k Hd D2 D3 n fuel Hlt p _ Hp P1 P2); exact Hlt.
Qed.

(** Equal degrees. While the quotients of the rounds are finite, division goes on until nothing is
    left of the leading coefficient; the quotient is then the constant added up from the rounds. *)
Theorem C96_equal : forall chk f powi (p d : bmap (flt f)) k n, let O := float_num chk f powi in swf p -> swf d ->
  has_degree O (spol O p) (Num k) -> has_degree O (spol O d) (Num k) ->
  let c := spol O p (N.to_nat k) in let l := spol O d (N.to_nat k) in is_finite l = true ->
  (forall i, i <= n -> is_finite (fdiv (residue l i c) l) = true) -> (forall i, i <= n -> feqb (residue l i c) (fzero f) = false) ->
  (sparse_div_mod O n p d = Fuel /\ sparse_rem O n p d = Fuel) /\
  (feqb (residue l (S n) c) (fzero f) = true -> forall fuel, n + 2 <= fuel ->
     exists r, sparse_div_mod O fuel p d = Ok ([(0%N, quotients l n (residue l 1 c) (fdiv c l))], r) /\ sparse_rem O fuel p d = Ok r /\
       forall i, N.to_nat k <= i -> feqb (spol O r i) (fzero f) = true).
Proof.
  intros chk f powi p d k n O Hp Hd Hpk Hdk c l Fl HF HN. unfold sparse_div_mod, sparse_rem.
  unfold O. rewrite (degree_first chk f powi d k Hd Hdk), (degree_first chk f powi p k Hp Hpk). fold O. fold c. fold l.
  rewrite N.ltb_irrefl. cbn [div float_num O bind]. rewrite usub_le by lia. cbn [bind]. rewrite N.sub_diag.
  destruct (degree_get chk f powi d k Hdk) as (D1 & D2 & D3). destruct (degree_get chk f powi p k Hpk) as (P1 & P2 & P3).
  fold O in D1, D2, P1, P2. fold l in D1, D2. fold c in P1, P2.
  assert (L : level f k p c) by (split; [exact Hp|split; [exact P1|exact P3]]). split.
  - destruct (loop_runs chk f powi d l k Hd D1 D2 D3 n p c L HF HN) as [A B]. split; [apply B|exact A].
  - intros HZ fuel Hfu. destruct (loop_ends chk f powi d l k Hd D1 D2 D3 n Fl p c None fuel L HF HN HZ Hfu) as (r & E1 & E2 & A & _).
    exists r. split; [exact E2|]. split; [exact E1|]. intros i Hi. unfold spol. destruct (m_get (N.of_nat i) r) as [v|] eqn:E; [apply (A (N.of_nat i)); [lia|exact E]|].
    cbn. destruct f; reflexivity.
Qed.

(** When the quotient of the leading coefficients underflows to zero, division never returns. *)
Theorem C96_underflow : forall chk f powi fuel (p d : bmap (flt f)) k, let O := float_num chk f powi in swf p -> swf d ->
  has_degree O (spol O p) (Num k) -> has_degree O (spol O d) (Num k) ->
  is_finite (spol O d (N.to_nat k)) = true -> feqb (fdiv (spol O p (N.to_nat k)) (spol O d (N.to_nat k))) (fzero f) = true ->
  sparse_div_mod O fuel p d = Fuel /\ sparse_rem O fuel p d = Fuel.
Proof.
  intros chk f powi fuel p d k O Hp Hd Hpk Hdk Fl HZ. destruct (degree_get chk f powi p k Hpk) as (_ & P2 & _).
  assert (S : forall i, residue (spol O d (N.to_nat k)) i (spol O p (N.to_nat k)) = spol O p (N.to_nat k)).
  { intros i. apply stuck; assumption. }
  apply (C96_equal chk f powi p d k fuel Hp Hd Hpk Hdk Fl); intros i _; fold O; rewrite S; [|exact P2].
  apply feqb_zero in HZ. destruct HZ as (s & ->). reflexivity.
Qed.

(** A divisor whose leading coefficient can be divided out without loss (C88): one round, the
    quotient is the rounded quotient of the leading coefficients, and each coefficient of the
    remainder is rounded twice. *)
Theorem C96_lossless : forall chk f powi fuel (p d : bmap (flt f)) k, let O := float_num chk f powi in swf p -> swf d ->
  has_degree O (spol O p) (Num k) -> has_degree O (spol O d) (Num k) ->
  let c := spol O p (N.to_nat k) in let l := spol O d (N.to_nat k) in
  undone l -> is_finite l = true -> is_finite c = true -> is_finite (fdiv c l) = true -> 2 <= fuel ->
  exists r, sparse_div_mod O fuel p d = Ok ([(0%N, fdiv c l)], r) /\ sparse_rem O fuel p d = Ok r /\
    (forall i, N.to_nat k <= i -> feqb (spol O r i) (fzero f) = true) /\
    forall i, fsame (spol O r i) (fsub (spol O p i) (fmul (spol O d i) (fdiv c l))).
Proof.
  intros chk f powi fuel p d k O Hp Hd Hpk Hdk c l Hu Fl Fc Fs Hfu.
  destruct (degree_get chk f powi d k Hdk) as (D1 & D2 & D3). destruct (degree_get chk f powi p k Hpk) as (P1 & P2 & P3).
  fold O in D1, D2, P1, P2. fold l in D1, D2. fold c in P1, P2.
  destruct (Hu c Fc Fs) as [F1 E1].
  assert (HZ : feqb (residue l 1 c) (fzero f) = true).
  { cbn [residue]. destruct (FloatDiv.fsub_same f c (fmul l (fdiv c l)) Fc F1 (eq_sym E1)) as [A B].
    apply feqb_zero. destruct (fsub c (fmul l (fdiv c l))) as [t|t| |t m e H]; try discriminate A; [eauto|]. exfalso. revert B. cbn. apply F2R_neq_0. cbn. destruct t; discriminate. }
  assert (HF : forall i, i <= 0 -> is_finite (fdiv (residue l i c) l) = true) by (intros i Hi; replace i with 0 by lia; exact Fs).
  assert (HN : forall i, i <= 0 -> feqb (residue l i c) (fzero f) = false) by (intros i Hi; replace i with 0 by lia; exact P2).
  assert (L : level f k p c) by (split; [exact Hp|split; [exact P1|exact P3]]).
  unfold sparse_div_mod, sparse_rem.
  unfold O. rewrite (degree_first chk f powi d k Hd Hdk), (degree_first chk f powi p k Hp Hpk). fold O. fold c. fold l.
  rewrite N.ltb_irrefl. cbn [div float_num O bind]. rewrite usub_le by lia. cbn [bind]. rewrite N.sub_diag.
  destruct (loop_ends chk f powi d l k Hd D1 D2 D3 0 Fl p c None fuel L HF HN HZ Hfu) as (r & E & E2 & A & C).
  exists r. split; [exact E2|]. split; [exact E|]. split.
  - intros i Hi. unfold spol. destruct (m_get (N.of_nat i) r) as [v|] eqn:Ei; [apply (A (N.of_nat i)); [lia|exact Ei]|]. cbn. destruct f; reflexivity.
  - intros i. apply (C eq_refl).
Qed.

(** x / 49x over f64 never returns: after 21 rounds the remaining coefficient is so small that its
    quotient underflows. *)
Theorem C96_equal_refuted : exists p d : bmap (flt F64), swf p /\ swf d /\
  (forall chk powi, let O := float_num chk F64 powi in has_degree O (spol O p) (Num 1) /\ has_degree O (spol O d) (Num 1)) /\
  B2R (sget F64 p 1) = 1%R /\ B2R (sget F64 d 1) = 49%R /\
  forall chk powi fuel, let O := float_num chk F64 powi in sparse_div_mod O fuel p d = Fuel /\ sparse_rem O fuel p d = Fuel.
Proof.
  assert (W : forall c : flt F64, swf [(1%N, c)]) by (intros c; split; [repeat constructor|repeat constructor; cbn [fst]; unfold USIZE_MAX; lia]).
  assert (D : forall (c : flt F64) chk powi, feqb c (fzero F64) = false -> has_degree (float_num chk F64 powi) (spol (float_num chk F64 powi) [(1%N, c)]) (Num 1)).
  { intros c chk powi Hc. split; [exact Hc|]. intros j Hj. change (N.to_nat 1) with 1 in Hj. unfold spol. cbn [m_get]. destruct (N.eqb_spec (N.of_nat j) 1) as [K|K]; [lia|reflexivity]. }
  set (a := f_of_Z F64 1). set (b := f_of_Z F64 49).
  assert (Na : feqb a (fzero F64) = false) by (vm_compute; reflexivity). assert (Nb : feqb b (fzero F64) = false) by (vm_compute; reflexivity).
  exists [(1%N, a)], [(1%N, b)]. split; [apply W|]. split; [apply W|]. split; [intros; split; apply D; assumption|].
  split; [|split]; [unfold sget, a; cbn [m_get N.eqb Pos.eqb]; vm_compute; lra|unfold sget, b; cbn [m_get N.eqb Pos.eqb]; vm_compute; lra|].
  intros chk powi fuel O.
  assert (K : forallb (fun i => negb (feqb (residue b i a) (fzero F64)) && is_finite (fdiv (residue b i a) b)) (seq 0 22) = true) by (vm_compute; reflexivity).
  assert (Z : feqb (fdiv (residue b 21 a) b) (fzero F64) = true) by (vm_compute; reflexivity).
  assert (Fb : is_finite b = true) by (vm_compute; reflexivity).
  assert (K' : forall i, i <= 21 -> feqb (residue b i a) (fzero F64) = false /\ is_finite (fdiv (residue b i a) b) = true).
  { intros i Hi. rewrite forallb_forall in K. specialize (K i ltac:(apply in_seq; lia)). apply andb_prop in K. destruct K as [K1 K2]. split; [|exact K2].
    destruct (feqb (residue b i a) (fzero F64)); [discriminate K1|reflexivity]. }
  assert (R : forall i j, residue b (i + j) a = residue b j (residue b i a)) by (intros i; generalize a; induction i as [|i IH]; intros x j; [reflexivity|apply IH]).
  assert (S : forall i, exists j, j <= 21 /\ residue b i a = residue b j a).
  { intros i. destruct (Nat.le_gt_cases i 21) as [H|H]; [exists i; auto|]. exists 21. split; [lia|]. replace i with (21 + (i - 21)) by lia. rewrite R.
    apply stuck; [exact Fb|apply (K' 21 ltac:(lia))|exact Z]. }
  apply (C96_equal chk F64 powi [(1%N, a)] [(1%N, b)] 1 fuel (W a) (W b) (D a chk powi Na) (D b chk powi Nb) Fb);
    intros i _; destruct (S i) as (j & Hj & E); change (feqb (residue b i a) (fzero F64) = false) || change (is_finite (fdiv (residue b i a) b) = true); rewrite E; apply (K' j Hj).
Qed.

(** (3x^2 + 5x) / (2x^2 + 7x + 1) = 1.5, remainder -5.5x - 1.5. *)
Example C96_case : forall chk powi, let O := float_num chk F64 powi in let z := f_of_Z F64 in
  let p := [(1%N, z 5%Z); (2%N, z 3%Z)] in let d := [(0%N, z 1%Z); (1%N, z 7%Z); (2%N, z 2%Z)] in
  swf p /\ swf d /\ has_degree O (spol O p) (Num 2) /\ has_degree O (spol O d) (Num 2) /\
  rmap (fun qr => (map (fun kv => (fst kv, B2SF (snd kv))) (fst qr), feqb (spol O (snd qr) 1) (fdiv (z (-11)%Z) (z 2%Z)), feqb (spol O (snd qr) 2) (fzero F64)))
    (sparse_div_mod O 2 p d) = Ok ([(0%N, B2SF (fdiv (z 3%Z) (z 2%Z)))], true, true).
Proof.
  intros chk powi O z p d. split; [|split; [|split; [|split]]].
  - split; [repeat constructor; unfold key_lt; cbn [fst]; lia|repeat constructor; cbn [fst]; unfold USIZE_MAX; lia].
  - split; [repeat constructor; unfold key_lt; cbn [fst]; lia|repeat constructor; cbn [fst]; unfold USIZE_MAX; lia].
  - split; [vm_compute; reflexivity|]. intros j Hj. change (N.to_nat 2) with 2 in Hj. unfold spol, p. cbn [m_get].
    destruct (N.eqb_spec (N.of_nat j) 1); [lia|]. destruct (N.eqb_spec (N.of_nat j) 2); [lia|]. reflexivity.
  - split; [vm_compute; reflexivity|]. intros j Hj. change (N.to_nat 2) with 2 in Hj. unfold spol, d. cbn [m_get].
    destruct (N.eqb_spec (N.of_nat j) 0); [lia|]. destruct (N.eqb_spec (N.of_nat j) 1); [lia|]. destruct (N.eqb_spec (N.of_nat j) 2); [lia|]. reflexivity.
  - vm_compute. reflexivity.
Qed.

Print Assumptions C96_small.
Print Assumptions C96_large.
Print Assumptions C96_equal.
Print Assumptions C96_underflow.
Print Assumptions C96_lossless.
Print Assumptions C96_equal_refuted.
