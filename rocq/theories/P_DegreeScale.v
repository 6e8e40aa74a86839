(** Property C74, continued: a non-zero multiple of a sparse polynomial has its degree. *)

From Coq Require Import List NArith ZArith Lia Bool Arith.
From Verif Require Import Base Num Spec SpecFacts Laws Terms Sparse DenseFacts DenseArith DenseMul DenseDiv DenseDivInt DenseCalc DenseCalcInt SparseFacts SparseArith SpecDegree Wrap P_Degree.
Import ListNotations.

Theorem C74_sparse_scale : forall T (O : num T) R den, lawful O R den -> domain R -> forall a c r,
  swf a -> is_zero O c = false -> sparse_scale O a c = Ok r \/ sparse_scale_assign O a c = Ok r -> sdeg O r = sdeg O a.
Proof.
  intros T O R den L HD a c r Ha Hc H. destruct (sparse_scale_spec O R den L a c r Ha H) as [W E].
  apply (sdeg_is O R den L r _ _ W E). apply (pscale_degree HD); [|apply sdeg_of; assumption].
  apply (is_zero_false_den O R den L), Hc.
Qed.

(** 3 x^70000 + 0 x^80000, the zero being stored, times -5. *)
Example C74_sparse_scale_case : let O := int_num true I32 in
  let a := [(70000%N, mk_int I32 3); (80000%N, mk_int I32 0)] in
  swf a /\ sdeg O a = Some (N.to_nat 70000) /\ exists r, sparse_scale O a (mk_int I32 (-5)) = Ok r /\ sdeg O r = Some (N.to_nat 70000).
Proof.
  intros O a. assert (W : swf a).
  { unfold a. split; [repeat constructor; unfold key_lt; cbn [fst]; lia|repeat constructor; cbn [fst]; unfold USIZE_MAX; lia]. }
  assert (G : sdeg O a = Some (N.to_nat 70000)).
  { unfold sdeg. replace (sparse_degree O a) with (Num 70000) by (vm_compute; reflexivity). reflexivity. }
  split; [exact W|]. split; [exact G|].
  destruct (sparse_scale O a (mk_int I32 (-5))) as [r| |] eqn:E; [|exfalso; vm_compute in E; discriminate E..].
  exists r. split; [reflexivity|]. rewrite <- G.
  apply (C74_sparse_scale _ O Z_ring ival (checked_lawful I32) Z_domain a (mk_int I32 (-5)) r W eq_refl). left. exact E.
Qed.

Print Assumptions C74_sparse_scale.
