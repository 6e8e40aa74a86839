(** Property C81: term-by-term construction of float polynomials. *)

From Coq Require Import List NArith ZArith Lia Bool Arith.
From Coq Require Import ZifyBool ZifyNat ZifyN.
From Flocq Require Import IEEE754.BinarySingleNaN.
From Verif Require Import Base Num Laws Terms Dense DenseFacts DenseMut Sparse SparseFacts Mono Bino Trino ArrPoly PolyMath.
From Verif Require Import SparseCalc MutFacts Floats FloatCoef Coef P_Struct P_FloatText.
Import ListNotations.
Local Open Scope nat_scope.

(** ** Specification: one floating-point operation per accepted call, on the coefficient named *)

Fixpoint fhist {f} (d : nat) (h : list (@call (flt f))) (log : list (option try_add_err)) (acc : flt f) : flt f :=
  match h, log with
  | CallAdd c e :: h', None :: log' => fhist d h' log' (if (e =? N.of_nat d)%N then fadd acc c else acc)
  | CallSub c e :: h', None :: log' => fhist d h' log' (if (e =? N.of_nat d)%N then fsub acc c else acc)
  | CallReset :: h', _ :: log' => fhist d h' log' (fzero f)
  | _ :: h', _ :: log' => fhist d h' log' acc
  | _, _ => acc
  end.

(** The answers of calls on a polynomial with room for the degrees accepted by [room] only. *)
Definition answers {T} (room : N -> bool) (h : list (@call T)) : list (option try_add_err) :=
  map (fun x => match x with
                | CallAdd _ d | CallSub _ d => if room d then None else Some DegreeOutOfBounds
                | CallReset => None
                end) h.

Definition calls_at {T} (ok : N -> Prop) (h : list (@call T)) : Prop :=
  Forall (fun x => match x with CallAdd _ d | CallSub _ d => ok d | CallReset => True end) h.

(** ** One call *)

Section Step.
Context {f : fty} {P : Type} (S : mutpoly (flt f) P) (reset : P -> P) (inv : P -> Prop) (rd : P -> nat -> flt f) (okd : N -> Prop).
Context (E : flt f -> flt f -> Prop).

(** A call returns; it either is accepted and does its operation, or changes nothing. *)
Definition fstep (room : P -> N -> bool) (err : try_add_err) : Prop := forall p c d, inv p -> okd d ->
  (exists r, s_add S p c d = Ok (r, if room p d then None else Some err) /\ inv r /\
     if room p d then forall i, E (rd r i) (if (d =? N.of_nat i)%N then fadd (rd p i) c else rd p i) else r = p) /\
  (exists r, s_sub S p c d = Ok (r, if room p d then None else Some err) /\ inv r /\
     if room p d then forall i, E (rd r i) (if (d =? N.of_nat i)%N then fsub (rd p i) c else rd p i) else r = p).

Context (Er : forall x, E x x) (Et : forall x y z, E x y -> E y z -> E x z).
Context (Ea : forall x y c, E x y -> E (fadd x c) (fadd y c)) (Es : forall x y c, E x y -> E (fsub x c) (fsub y c)).
Context (Hreset : forall p, inv p -> inv (reset p) /\ forall i, E (rd (reset p) i) (fzero f)).

Lemma fhist_E d h : forall log x y, E x y -> E (fhist d h log x) (fhist d h log y).
Proof.
  induction h as [|[c e|c e|] h IH]; intros [|[k|] log] x y H; cbn [fhist]; try exact H; apply IH; try exact H; try apply Er;
    destruct (e =? N.of_nat d)%N; auto.
Qed.

Lemma run_fhist room err : fstep room err -> forall h p, inv p -> calls_at okd h ->
  exists r log, run S reset h p = Ok (r, log) /\ inv r /\ length log = length h /\
    (forall d, E (rd r d) (fhist d h log (rd p d))) /\
    (forall g, (forall q d, room q d = g d) -> err = DegreeOutOfBounds -> log = answers g h).
Proof.
  intros HS. induction h as [|x h IH]; intros p Hp Hh; cbn [run].
  - exists p, []. repeat split; auto.
  - inversion Hh as [|? ? Hx Hh']; subst.
    assert (X : exists q k, do_call S reset p x = Ok (q, k) /\ inv q /\
      (forall d, E (rd q d) (fhist d [x] [k] (rd p d))) /\
      (forall g, (forall q d, room q d = g d) -> err = DegreeOutOfBounds -> [k] = answers g [x])).
    { destruct x as [c e|c e|]; cbn [do_call].
      - destruct (proj1 (HS p c e Hp Hx)) as (q & Hq & Iq & Cq). exists q, (if room p e then None else Some err). split; [exact Hq|]. split; [exact Iq|].
        split.
        + intros d. destruct (room p e); cbn [fhist]; [apply Cq|subst q; apply Er].
        + intros g Hg ->. cbn. rewrite <- (Hg p). reflexivity.
      - destruct (proj2 (HS p c e Hp Hx)) as (q & Hq & Iq & Cq). exists q, (if room p e then None else Some err). split; [exact Hq|]. split; [exact Iq|].
        split.
        + intros d. destruct (room p e); cbn [fhist]; [apply Cq|subst q; apply Er].
        + intros g Hg ->. cbn. rewrite <- (Hg p). reflexivity.
      - destruct (Hreset p Hp) as [I1 I2]. exists (reset p), None. split; [reflexivity|]. split; [exact I1|]. split; [|reflexivity]. intros d. cbn [fhist]. apply I2. }
    destruct X as (q & k & Hq & Iq & Cq & Aq). rewrite Hq. cbn [bind fst snd].
    destruct (IH q Iq Hh') as (r & log & Hr & Ir & Lr & Cr & Ar). rewrite Hr. cbn [bind fst snd].
    exists r, (k :: log). split; [reflexivity|]. split; [exact Ir|]. split; [cbn; lia|]. split.
    + intros d. eapply Et; [apply Cr|].
      assert (F : fhist d (x :: h) (k :: log) (rd p d) = fhist d h log (fhist d [x] [k] (rd p d))) by (destruct x, k; reflexivity).
      rewrite F. apply fhist_E, Cq.
    + intros g Hg He. specialize (Aq g Hg He). specialize (Ar g Hg He). cbn in Aq |- *. injection Aq as ->. rewrite Ar. reflexivity.
Qed.
End Step.

(** ** The types *)

Lemma nat_eqb_N (d : N) (i : nat) : (i =? N.to_nat d) = (d =? N.of_nat i)%N.
Proof. lia. Qed.

Section Types.
Context (chk : bool) (f : fty) (powi : flt f -> N -> flt f).
Notation O := (float_num chk f powi).
Notation z := (fzero f).

Lemma fadd_same (x y c : flt f) : fsame x y -> fsame (fadd x c) (fadd y c).
Proof.
  intros [->|[Hx Hy]]; [apply fsame_refl|].
  destruct x as [s|[]| |[] m e H]; try discriminate Hx; destruct y as [t|[]| |[] m' e' H']; try discriminate Hy.
  destruct c as [u|u| |u m e H]; try apply fsame_refl. destruct s, t, u; cbn; apply fsame_zeros.
Qed.
Lemma fsub_same (x y c : flt f) : fsame x y -> fsame (fsub x c) (fsub y c).
Proof.
  intros [->|[Hx Hy]]; [apply fsame_refl|].
  destruct x as [s|[]| |[] m e H]; try discriminate Hx; destruct y as [t|[]| |[] m' e' H']; try discriminate Hy.
  destruct c as [u|u| |u m e H]; try apply fsame_refl. destruct s, t, u; cbn; apply fsame_zeros.
Qed.

Lemma dense_upd (g : flt f -> flt f) l d : vec_ok O l -> (d + 1 <= n_max_len O)%N ->
  exists r, upd_term O l d (fun x => Ok (g x)) = Ok r /\ vec_ok O r /\ forall i, dpol O r i = if (d =? N.of_nat i)%N then g (dpol O l i) else dpol O l i.
Proof.
  intros Hl Hd. pose proof (float_cap chk f powi) as Hcap. unfold vec_ok in *. rewrite upd_term_unfold by (unfold vec_ok; lia).
  destruct (N.leb_spec (N.max (len l) (d + 1)) (n_max_len O)) as [_|]; [|lia].
  pose proof (pad_to_len O l d) as Hp.
  destruct (update_at f powi (pad_to O l d) (N.max (len l) (d + 1) - d - 1) g (N.to_nat d)) as (r & Hr & Lr & Cr).
  { unfold len in *. lia. } { unfold len in *. lia. }
  rewrite Hr. exists r. split; [reflexivity|].
  split; [unfold len in *; lia|]. intros i. unfold dpol. change (zero O) with z. rewrite Cr, nat_eqb_N.
  assert (E : cf z (pad_to O l d) i = cf z l i).
  { unfold pad_to. change (zero O) with z. rewrite cf_app. destruct (Nat.ltb_spec i (length l)); [reflexivity|].
    rewrite cf_repeat, cf_overflow by assumption. reflexivity. }
  rewrite E. reflexivity.
Qed.

Lemma dense_fstep : fstep (dense_mut O) (vec_ok O) (dpol O) (fun d => (d + 1 <= n_max_len O)%N) eq (fun _ _ => true) DegreeOutOfBounds.
Proof.
  intros l c d Hl Hd. cbn [s_add s_sub dense_mut]. split.
  - unfold dense_try_add_term. rewrite dense_add_term_upd. change (fun x => add O x c) with (fun x : flt f => Ok (fadd x c)).
    destruct (dense_upd (fun x => fadd x c) l d Hl Hd) as (r & -> & Ir & Cr). exists r. split; [reflexivity|]. split; assumption.
  - rewrite dense_try_sub_term_upd. 
    destruct (dense_upd (fun x => fsub x c) l d Hl Hd) as (r & Hr & Ir & Cr). change (fun x => sub O x c) with (fun x : flt f => Ok (fsub x c)).
    rewrite Hr. exists r. cbn [can_negate float_num]. pose proof (float_cap chk f powi). rewrite uadd_small by lia. cbn [bind negb andb]. rewrite andb_false_r. cbn [bind].
    split; [reflexivity|]. split; assumption.
Qed.

Lemma sparse_fstep : fstep (sparse_mut O) swf (spol O) (fun d => (d <= USIZE_MAX)%N) fsame (fun _ _ => true) DegreeOutOfBounds.
Proof.
  intros m c d Hm Hd. cbn [s_add s_sub sparse_mut]. split.
  - destruct (is_zero O c) eqn:Hz.
    + unfold sparse_try_add_term, sparse_add_term. rewrite Hz. exists m. split; [reflexivity|]. split; [exact Hm|]. intros i.
      destruct (d =? N.of_nat i)%N; [|apply fsame_refl]. destruct c as [s|[]| |[] ? ? ?]; try discriminate Hz. apply fadd_zero_r.
    + destruct (sparse_adds chk f powi m c d Hm Hd Hz) as (r & Hr & Ir & Cr). exists r. split; [exact Hr|]. split; [exact Ir|]. intros i. rewrite Cr. apply fsame_refl.
  - unfold sparse_try_sub_term. destruct (is_zero O c) eqn:Hz.
    + exists m. split; [reflexivity|]. split; [exact Hm|]. intros i.
      destruct (d =? N.of_nat i)%N; [|apply fsame_refl]. destruct c as [s|[]| |[] ? ? ?]; try discriminate Hz. apply fsub_zero_r.
    + destruct (m_get d m) as [v|] eqn:E; cbn [bind sub float_num can_negate negb]; (eexists; split; [reflexivity|]; split; [apply m_insert_wf; assumption|]);
        intros i; unfold spol; rewrite m_get_insert, N.eqb_sym; destruct (N.eqb_spec d (N.of_nat i)) as [<-|]; try apply fsame_refl; rewrite E; apply fsame_refl.
Qed.

Lemma bino_fstep : fstep (bino_mut O) (fun _ => True) (fun b => dpol O (bino_list b)) (fun _ => True) eq (fun _ d => (d <=? 1)%N) DegreeOutOfBounds.
Proof.
  intros [b0 b1] c d _ _. cbn [s_add s_sub bino_mut]. unfold bino_try_add_term, bino_try_sub_term. destruct (N.leb_spec d 1) as [H|]; [|split; eexists; repeat split].
  assert (D : d = 0%N \/ d = 1%N) by lia.
  split; destruct D as [-> | ->]; (eexists; split; [cbv [bino_update N.eqb bind fst snd]; reflexivity|]; split; [exact I|]); intros [|[|i]]; try reflexivity;
    unfold dpol; rewrite !cf_overflow by (cbn; lia); match goal with |- context [(?a =? ?b)%N] => destruct (N.eqb_spec a b) end; (reflexivity || lia).
Qed.
Lemma trino_fstep : fstep (trino_mut O) (fun _ => True) (fun b => dpol O (trino_list b)) (fun _ => True) eq (fun _ d => (d <=? 2)%N) DegreeOutOfBounds.
Proof.
  intros [b0 b1 b2] c d _ _. cbn [s_add s_sub trino_mut]. unfold trino_try_add_term, trino_try_sub_term. destruct (N.leb_spec d 2) as [H|]; [|split; eexists; repeat split].
  assert (D : d = 0%N \/ d = 1%N \/ d = 2%N) by lia.
  split; destruct D as [-> |[-> | ->]]; (eexists; split; [cbv [trino_update N.eqb bind fst snd]; reflexivity|]; split; [exact I|]); intros [|[|[|i]]]; try reflexivity;
    unfold dpol; rewrite !cf_overflow by (cbn; lia); match goal with |- context [(?a =? ?b)%N] => destruct (N.eqb_spec a b) end; (reflexivity || lia).
Qed.
Lemma arr_fstep n : (N.of_nat n <= USIZE_MAX)%N ->
  fstep (arr_mut O) (fun a => length a = n) (dpol O) (fun _ => True) eq (fun _ d => (d <? N.of_nat n)%N) DegreeOutOfBounds.
Proof.
  intros Hn a c d Ha _. cbn [s_add s_sub arr_mut]. unfold arr_try_add_term, arr_try_sub_term.
  assert (La : len a = N.of_nat n) by (unfold len; lia). rewrite !La.
  destruct (N.ltb_spec d (N.of_nat n)) as [H|]; [|split; exists a; repeat split; auto].
  rewrite !usub_le by lia. cbn [bind]. rewrite !usub_le by lia. cbn [bind].
  assert (G : forall g : flt f -> flt f, exists r, update a (N.of_nat n - d - 1) (fun x => Ok (g x)) = Ok r /\ length r = n /\
    forall i, dpol O r i = if (d =? N.of_nat i)%N then g (dpol O a i) else dpol O a i).
  { intros g. destruct (update_at f powi a (N.of_nat n - d - 1) g (N.to_nat d)) as (r & Hr & Lr & Cr); [lia|lia|].
    exists r. split; [exact Hr|]. split; [lia|]. intros i. unfold dpol. change (zero O) with z. rewrite Cr, nat_eqb_N. reflexivity. }
  split.
  - destruct (G (fun x => fadd x c)) as (r & Hr & Lr & Cr). change (fun x => add O x c) with (fun x : flt f => Ok (fadd x c)). rewrite Hr. exists r. auto.
  - destruct (G (fun x => fsub x c)) as (r & Hr & Lr & Cr). change (fun x => sub O x c) with (fun x : flt f => Ok (fsub x c)). rewrite Hr. exists r. auto.
Qed.

Lemma mono_fstep : fstep (mono_mut O) (fun _ => True) (mpol O) (fun _ => True) fsame
  (fun m d => feqb (mcoef m) z || (d =? mdeg m)%N) TooManyTerms.
Proof.
  intros [a k] c d _ _. cbn [s_add s_sub mono_mut]. unfold mono_try_add_term, mono_try_sub_term, mono_is_zero, mono_degree. cbn [mcoef mdeg is_zero float_num].
  assert (G : forall g : flt f -> flt f -> flt f, (forall s u, fsame (g (B754_zero s) c) (g (B754_zero u) c)) -> (feqb a z || (d =? k)%N) = true ->
    forall i, fsame (mpol O (MkMono (g a c) d) i) (if (d =? N.of_nat i)%N then g (mpol O (MkMono a k) i) c else mpol O (MkMono a k) i)).
  { intros g Hg Ho i. unfold mpol. cbn [mcoef mdeg zero float_num]. rewrite (N.eqb_sym d).
    destruct (feqb a z) eqn:Ez.
    - destruct a as [s|[]| |[] ? ? ?]; try discriminate Ez.
      destruct (N.of_nat i =? d)%N; destruct (N.of_nat i =? k)%N; try apply fsame_refl; try apply Hg. apply fsame_zeros.
    - cbn [orb] in Ho. apply N.eqb_eq in Ho. subst d. destruct (N.of_nat i =? k)%N; apply fsame_refl. }
  assert (Ga : forall s u, fsame (fadd (B754_zero s) c) (fadd (B754_zero u) c)) by (intros; apply fadd_same, fsame_zeros).
  assert (Gs : forall s u, fsame (fsub (B754_zero s) c) (fsub (B754_zero u) c)) by (intros; apply fsub_same, fsame_zeros).
  specialize (G fadd Ga) as G1. specialize (G fsub Gs) as G2. clear G.
  destruct (feqb a z) eqn:Ez; cbn [degree_is_zero orb bind] in *.
  - split; eexists; (split; [reflexivity|]); (split; [exact I|]); [apply G1|apply G2]; reflexivity.
  - destruct (N.eqb_spec d k) as [->|Hk].
    + split; eexists; (split; [reflexivity|]); (split; [exact I|]); [apply G1|apply G2]; reflexivity.
    + split; eexists; (split; [reflexivity|]); split; exact I || reflexivity.
Qed.
End Types.

(** ** C81 *)

(** Dense and sparse polynomials: every history of calls returns, no call is refused, and each
    coefficient is the result of the operations naming it, in order, one rounding each. *)
Theorem C81_history : forall chk f powi h, let O := float_num chk f powi in
  (forall l, vec_ok O l -> calls_at (fun d => (d + 1 <= n_max_len O)%N) h ->
     exists r, run (dense_mut O) (fun _ => dense_zero) h l = Ok (r, map (fun _ => None) h) /\ vec_ok O r /\
       forall d, dpol O r d = fhist d h (map (fun _ => None) h) (dpol O l d)) /\
  (forall m, swf m -> calls_at (fun d => (d <= USIZE_MAX)%N) h ->
     exists r, run (sparse_mut O) (fun _ => []) h m = Ok (r, map (fun _ => None) h) /\ swf r /\
       forall d, fsame (spol O r d) (fhist d h (map (fun _ => None) h) (spol O m d))).
Proof.
  intros chk f powi h O.
  assert (A : forall h : list (@call (flt f)), answers (fun _ => true) h = map (fun _ => None) h).
  { intros k. unfold answers. apply map_ext. intros []; reflexivity. }
  split.
  - intros l Hl Hh. destruct (run_fhist (dense_mut O) (fun _ => dense_zero) (vec_ok O) (dpol O) (fun d => (d + 1 <= n_max_len O)%N) eq) with (room := fun (_ : list (flt f)) (_ : N) => true) (err := DegreeOutOfBounds) (h := h) (p := l)
      as (r & log & Hr & Ir & Lr & Cr & Ar); try congruence.
    + intros p _. split; [unfold vec_ok, dense_zero, len; cbn; lia|]. intros i. apply cf_nil.
    + apply dense_fstep.
    + specialize (Ar (fun _ => true) (fun _ _ => eq_refl) eq_refl). rewrite A in Ar. subst log. exists r. auto.
  - intros m Hm Hh. destruct (run_fhist (sparse_mut O) (fun _ => []) swf (spol O) (fun d => (d <= USIZE_MAX)%N) fsame) with (room := fun (_ : bmap (flt f)) (_ : N) => true) (err := DegreeOutOfBounds) (h := h) (p := m)
      as (r & log & Hr & Ir & Lr & Cr & Ar).
    + apply fsame_refl. + apply fsame_trans. + apply fadd_same. + apply fsub_same.
    + intros p _. split; [apply swf_nil|]. intros i. apply fsame_refl.
    + apply sparse_fstep.
    + exact Hm.
    + exact Hh.
    + specialize (Ar (fun _ => true) (fun _ _ => eq_refl) eq_refl). rewrite A in Ar. subst log. exists r. auto.
Qed.

(** Fixed shapes: every call returns; those beyond the shape are refused and change nothing. *)
Theorem C81_fixed : forall chk f powi h, let O := float_num chk f powi in
  (forall b, exists r, run (bino_mut O) (fun _ => bino_zero O) h b = Ok (r, answers (fun d => (d <=? 1)%N) h) /\
     forall d, dpol O (bino_list r) d = fhist d h (answers (fun d => (d <=? 1)%N) h) (dpol O (bino_list b) d)) /\
  (forall b, exists r, run (trino_mut O) (fun _ => trino_zero O) h b = Ok (r, answers (fun d => (d <=? 2)%N) h) /\
     forall d, dpol O (trino_list r) d = fhist d h (answers (fun d => (d <=? 2)%N) h) (dpol O (trino_list b) d)) /\
  (forall a, (len a <= USIZE_MAX)%N -> exists r, run (arr_mut O) (fun a => arr_zero O (length a)) h a = Ok (r, answers (fun d => (d <? len a)%N) h) /\
     length r = length a /\ forall d, dpol O r d = fhist d h (answers (fun d => (d <? len a)%N) h) (dpol O a d)).
Proof.
  intros chk f powi h O.
  assert (T : calls_at (fun _ => True) h) by (apply Forall_forall; intros [] _; exact I).
  split; [|split].
  - intros b. destruct (run_fhist (bino_mut O) (fun _ => bino_zero O) (fun _ => True) (fun b => dpol O (bino_list b)) (fun _ => True) eq) with (room := fun (_ : bino (flt f)) d => (d <=? 1)%N) (err := DegreeOutOfBounds) (h := h) (p := b)
      as (r & log & Hr & Ir & Lr & Cr & Ar); try congruence; auto.
    + intros p _. split; [exact I|]. intros [|[|i]]; try reflexivity. apply cf_overflow. cbn. lia.
    + apply bino_fstep.
    + specialize (Ar _ (fun _ _ => eq_refl) eq_refl). subst log. exists r. auto.
  - intros b. destruct (run_fhist (trino_mut O) (fun _ => trino_zero O) (fun _ => True) (fun b => dpol O (trino_list b)) (fun _ => True) eq) with (room := fun (_ : trino (flt f)) d => (d <=? 2)%N) (err := DegreeOutOfBounds) (h := h) (p := b)
      as (r & log & Hr & Ir & Lr & Cr & Ar); try congruence; auto.
    + intros p _. split; [exact I|]. intros [|[|[|i]]]; try reflexivity. apply cf_overflow. cbn. lia.
    + apply trino_fstep.
    + specialize (Ar _ (fun _ _ => eq_refl) eq_refl). subst log. exists r. auto.
  - intros a Ha. destruct (run_fhist (arr_mut O) (fun a => arr_zero O (length a)) (fun x => length x = length a) (dpol O) (fun _ => True) eq) with (room := fun (_ : list (flt f)) d => (d <? N.of_nat (length a))%N) (err := DegreeOutOfBounds) (h := h) (p := a)
      as (r & log & Hr & Ir & Lr & Cr & Ar); try congruence; auto.
    + intros p Hp. split; [unfold arr_zero; rewrite repeat_length; exact Hp|]. intros i. apply cf_repeat.
    + apply arr_fstep. exact Ha.
    + unfold len. specialize (Ar _ (fun _ _ => eq_refl) eq_refl). subst log. exists r. auto.
Qed.

(** A monomial: a call is accepted iff it stays one term, and what is refused changes nothing. *)
Theorem C81_monomial : forall chk f powi h, let O := float_num chk f powi in forall m,
  (exists r log, run (mono_mut O) (mono_set_to_zero O) h m = Ok (r, log) /\ length log = length h /\
     forall d, fsame (mpol O r d) (fhist d h log (mpol O m d))) /\
  (forall c d, let one_term := is_zero O (mcoef m) = true \/ d = mdeg m in
     (one_term -> exists r s, mono_try_add_term O m c d = Ok (r, None) /\ mono_try_sub_term O m c d = Ok (s, None)) /\
     (~ one_term -> mono_try_add_term O m c d = Ok (m, Some TooManyTerms) /\ mono_try_sub_term O m c d = Ok (m, Some TooManyTerms))).
Proof.
  intros chk f powi h O m. split.
  - destruct (run_fhist (mono_mut O) (mono_set_to_zero O) (fun _ => True) (mpol O) (fun _ => True) fsame) with (room := fun (m : mono (flt f)) d => feqb (mcoef m) (fzero f) || (d =? mdeg m)%N) (err := TooManyTerms) (h := h) (p := m)
      as (r & log & Hr & _ & Lr & Cr & _).
    + apply fsame_refl. + apply fsame_trans. + apply fadd_same. + apply fsub_same.
    + intros p _. split; [exact I|]. intros i. unfold mpol, mono_set_to_zero. cbn [mcoef mdeg]. destruct (_ =? _)%N; apply fsame_refl.
    + apply mono_fstep.
    + exact I.
    + apply Forall_forall. intros [] _; exact I.
    + eauto.
  - intros c d ot. destruct (mono_fstep chk f powi m c d I I) as [(r & Hr & _ & Cr) (s & Hs & _ & Cs)]. cbn [s_add s_sub mono_mut] in *.
    destruct (feqb (mcoef m) (fzero f) || (d =? mdeg m)%N) eqn:E.
    + split; [eauto|]. intros N. exfalso. apply N. apply orb_true_iff in E. destruct E as [E|E]; [left; exact E|right; apply N.eqb_eq, E].
    + subst r s. split; [|auto]. apply orb_false_iff in E. destruct E as [E1 E2]. intros [K|K]; [cbn in K; congruence|]. apply N.eqb_neq in E2. contradiction.
Qed.

(** Built up from zero by the same calls, the two representations hold the same numbers. *)
Theorem C81_representations_agree : forall chk f powi h l m log1 log2, let O := float_num chk f powi in
  calls_at (fun d => (d + 1 <= n_max_len O)%N) h ->
  run (dense_mut O) (fun _ => dense_zero) h dense_zero = Ok (l, log1) -> run (sparse_mut O) (fun _ => []) h [] = Ok (m, log2) ->
  log1 = log2 /\ forall d, fsame (spol O m d) (dpol O l d).
Proof.
  intros chk f powi h l m log1 log2 O Hh H1 H2. subst O. destruct (C81_history chk f powi h) as [A B].
  destruct (A dense_zero ltac:(unfold vec_ok, dense_zero, len; cbn; lia) Hh) as (l' & K1 & _ & C1).
  destruct (B [] swf_nil) as (m' & K2 & _ & C2).
  { eapply Forall_impl; [|exact Hh]. pose proof (float_cap chk f powi). intros [] Hc; try exact I; lia. }
  rewrite K1 in H1. rewrite K2 in H2. injection H1 as <- <-. injection H2 as <- <-. split; [reflexivity|].
  intros d. rewrite C1. specialize (C2 d). replace (dpol (float_num chk f powi) dense_zero d) with (spol (float_num chk f powi) [] d); [exact C2|]. symmetry. apply cf_nil.
Qed.

(** ** C72: trimming *)

Lemma filter_rev' {A} (g : A -> bool) l : rev (filter g l) = filter g (rev l).
Proof.
  induction l as [|x l IH]; [reflexivity|]. cbn [filter rev]. rewrite filter_app. cbn [filter]. destruct (g x); cbn [rev]; rewrite IH; [reflexivity|].
  rewrite app_nil_r. reflexivity.
Qed.
Lemma filter_twice {A} (g : A -> bool) l : filter g (filter g l) = filter g l.
Proof. induction l as [|x l IH]; [reflexivity|]. cbn [filter]. destruct (g x) eqn:E; cbn [filter]; [rewrite E, IH; reflexivity|exact IH]. Qed.

(** trim() removes the leading zeros of a dense polynomial and nothing else, and all stored zeros
    of a sparse one and nothing else, whatever the coefficient type. *)
Theorem C72_trim : forall T (O : num T),
  (forall l, exists zs r, dense_trim O l = Ok r /\ l = zs ++ r /\ Forall (fun c => is_zero O c = true) zs /\
     match r with [] => True | c :: _ => is_zero O c = false end) /\
  (forall m, swf m -> swf (sparse_trim O m) /\ (forall d v, In (d, v) (sparse_trim O m) <-> In (d, v) m /\ is_zero O v = false) /\
     sparse_terms O (sparse_trim O m) = sparse_terms O m).
Proof.
  intros T O. split.
  - intros l. destruct (strip_split O l) as (pre & E & _ & Hz & Hh). exists pre, (strip O l). split; [apply (dense_new_ok O)|].
    split; [exact E|]. split; [exact Hz|]. destruct (strip O l); [exact I|apply Hh].
  - intros m Hm. split; [apply filter_swf, Hm|]. split.
    + intros d v. unfold sparse_trim. rewrite filter_In. cbn [snd]. rewrite negb_true_iff. reflexivity.
    + unfold sparse_terms, sparse_trim. f_equal. rewrite filter_rev'. apply filter_twice.
Qed.

(** Adding 2^53 and then 1 to x^3, f64: the second is lost to rounding; both representations agree;
    2 x^3 - x^3 on a monomial; x^2 refused by a linear polynomial. *)
Example C81_case : let O := float_num true F64 (fun a _ => a) in let n := f_of_Z F64 in
  let h := [CallAdd (n (2 ^ 53)%Z) 3%N; CallAdd (n 1%Z) 3%N; CallSub (n 5%Z) 0%N] in
  calls_at (fun d => (d + 1 <= n_max_len O)%N) h /\ calls_at (fun d => (d <= USIZE_MAX)%N) h /\
  feqb (fhist 3 h (map (fun _ => None) h) (fzero F64)) (n (2 ^ 53)%Z) = true /\ feqb (fhist 0 h (map (fun _ => None) h) (fzero F64)) (n (-5)%Z) = true /\
  rmap (fun r => map (@B2SF (fprec F64) (femax F64)) (fst r)) (run (dense_mut O) (fun _ => dense_zero) h dense_zero)
    = Ok (map (@B2SF (fprec F64) (femax F64)) [n (2 ^ 53)%Z; fzero F64; fzero F64; n (-5)%Z]) /\
  rmap snd (run (mono_mut O) (mono_set_to_zero O) [CallAdd (n 2%Z) 3%N; CallSub (n 1%Z) 3%N; CallAdd (n 1%Z) 1%N] (mono_zero O)) = Ok [None; None; Some TooManyTerms] /\
  answers (fun d => (d <=? 1)%N) [CallAdd (n 1%Z) 2%N; CallSub (n 1%Z) 1%N] = [Some DegreeOutOfBounds; None].
Proof.
  cbv zeta. split; [|split; [|split; [|split; [|split; [|split]]]]].
  - unfold calls_at. rewrite Forall_forall. intros x [<-|[<-|[<-|[]]]]; vm_compute; discriminate.
  - unfold calls_at. rewrite Forall_forall. intros x [<-|[<-|[<-|[]]]]; vm_compute; discriminate.
  - vm_compute. reflexivity.
  - vm_compute. reflexivity.
  - vm_compute. reflexivity.
  - vm_compute. reflexivity.
  - reflexivity.
Qed.

Print Assumptions C81_history.
Print Assumptions C81_fixed.
Print Assumptions C81_monomial.
Print Assumptions C81_representations_agree.
Print Assumptions C72_trim.
