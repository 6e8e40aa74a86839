(** The repository's own assertions, run against the model.

    This file is validation of the model, not proof: each boolean below is one assertion of a
    test or of a documentation example in /repo/src (cited by file and line of the test), with
    the library calls replaced by their models, and is computed by the kernel.  An assertion
    [assert_eq!(x, y)] uses the model of the type's own [==].

    Left out: the tests of the external solver (find_roots.rs 328-341), of mere construction
    (array_polynomial.rs 301) and repetitions of an assertion through the
    `-Assign` form when the model has one definition for both forms. *)

From Coq Require Import List NArith ZArith Bool Ascii String List.
From Flocq Require Import IEEE754.BinarySingleNaN.
From Verif Require Import Base Num Terms Dense Sparse Mono Bino Trino ArrPoly PolyMath Strs Integr Floats Upcast Roots Numerics FloatQuad FloatText P_Roots2.
Import ListNotations.
Local Open Scope Z_scope.

Local Notation I := (int_num true I32).
Local Notation X := (int_txt I32).
Local Notation i := (mk_int I32).
(** [f64]; no assertion below reaches [powi] or [cbrt] except where it is exact. *)
Local Notation F := (float_num true F64 (fun x _ => x)).
Local Notation g := (f_of_Z F64).

Definition holds (b : res bool) : bool := match b with Ok true => true | _ => false end.
Definition fails (b : res bool) : bool := match b with Ok false => true | _ => false end.
Definition v (l : list Z) : list (int I32) := map i l.
Definition w (l : list Z) : list (flt F64) := map g l.

(** Polynomial *)
Definition p (l : list Z) := dense_new I (v l).
Definition q (l : list Z) := dense_new F (w l).
Definition deq {T} (O : num T) (a b : res (list T)) : res bool := x <- a ;; y <- b ;; dense_eq O x y.
Infix "==" := (deq I) (at level 70). Infix "=.=" := (deq F) (at level 70).
Definition op1 {A B} (f : A -> res B) (a : res A) : res B := x <- a ;; f x.
Definition op2 {A B C} (f : A -> B -> res C) (a : res A) (b : res B) : res C := x <- a ;; y <- b ;; f x y.
Definition ieq (a : res (int I32)) (z : Z) : bool := match a with Ok x => ival x =? z | _ => false end.
Definition feq (a : res (flt F64)) (x : flt F64) : bool := match a with Ok y => feqb y x | _ => false end.
Definition rdeg {T} (O : num T) (a : res (list T)) (d : degree) : bool :=
  match a with Ok x => degree_eqb (dense_degree O x) d | _ => false end.
Definition rzero (a : res (list (int I32))) : res bool := x <- a ;; Ok (dense_is_zero I x).
(** [x * y] of two owned polynomials, [x.clone() * y.clone()] and [b *= &a] *)
Definition powers (n : nat) (a : res (list (int I32))) : bool :=
  (fix go n k b := match n with
     | 0%nat => true
     | Datatypes.S n => holds (b == op1 (fun x => dense_pow I 99 x k) a) && go n (k + 1)%N (op2 (dense_mul I) b a)
     end) n 1%N a.

Example polynomial_rs_tests : forallb (fun b => b) [
  (* 960 test_polynomial_macro, test_eval *)
  holds (p [1;2;3;4] == p [1;2;3;4]);
  ieq (op1 (fun x => dense_eval I x (i 5)) (p [1;2;3])) (25 + 2 * 5 + 3);
  (* test_derivative *)
  holds (p [2;2] == op1 (dense_derivative I) (p [1;2;3]));
  holds (p [2;2] == op1 (dense_derivative I) (p [0;1;2;3]));
  holds (p [3;4;3] == op1 (dense_derivative I) (p [1;2;3;4]));
  holds (Ok dense_zero == dense_derivative I dense_zero);
  (* test_integral, test_integral_eval, test_integral_const_substitute *)
  holds (p [1;1;1;0] == op1 (dense_integral I) (p [3;2;1]));
  ieq (op1 (fun x => dense_integral_eval I x (i 0) (i 1)) (op1 (dense_integral I) (p [3;2;1]))) 3;
  holds (p [1;1;1;5] == op1 (fun x => dense_replace_c I x (i 5)) (op1 (dense_integral I) (p [3;2;1])));
  (* test_add_* *)
  holds (p [1;3;5;7] == op2 (dense_add I) (p [1;2;3;4]) (p [1;2;3]));
  holds (p [1;3;5;7] == op2 (dense_add I) (p [1;2;3]) (p [1;2;3;4]));
  holds (p [1;3;5;7] == op2 (dense_add_assign I) (p [1;2;3;4]) (p [1;2;3]));
  holds (p [1;3;5;7] == op2 (dense_add_assign I) (p [1;2;3]) (p [1;2;3;4]));
  (* test_sub_* *)
  holds (p [1;0;0;0] == op2 (dense_sub I) (p [1;2;3;4]) (p [2;3;4]));
  holds (p [-1;0;0;0] == op2 (dense_sub I) (p [2;3;4]) (p [1;2;3;4]));
  holds (p [1;0;0;0] == op2 (dense_sub_assign I) (p [1;2;3;4]) (p [2;3;4]));
  holds (p [-1;0;0;0] == op2 (dense_sub_assign I) (p [2;3;4]) (p [1;2;3;4]));
  (* test_negate *)
  holds (p [-1;-2;-3;0;5] == op1 (dense_neg I) (p [1;2;3;0;-5]));
  (* test_mul_* *)
  holds (p [1;4;4] == op2 (dense_mul I) (p [1;2]) (p [1;2]));
  holds (p [1;4;4] == op2 (dense_mul_ref I) (p [1;2]) (p [1;2]));
  holds (p [10;20] == op1 (fun x => dense_scale I x (i 10)) (p [1;2]));
  holds (p [10;20] == op1 (fun x => dense_scale_assign I x (i 10)) (p [1;2]));
  (* test_equality*: the raw term vectors *)
  holds (Ok (v [0;0;0;1;2]) == p [1;2]); fails (Ok (v [1;2;0;0;0]) == p [1;2]);
  fails (p [1;2] == p [1;0]); fails (p [1;2] == p [3;7;4]);
  (* test_shl_*, test_shr_* *)
  holds (p [1;2;0;0;0;0;0] == op1 (fun x => dense_shift I 9 true x 5) (p [1;2]));
  holds (p [1;2;0;0;0;0;0] == op1 (fun x => dense_shift_assign I 9 true x 5) (p [1;2]));
  holds (p [1;2] == op1 (fun x => dense_shift I 9 true x (-5)) (p [1;2;0;0;0;0;0]));
  holds (p [1;2] == op1 (fun x => dense_shift_assign I 9 true x (-5)) (p [1;2;0;0;0;0;0]));
  holds (p [1;2] == op1 (fun x => dense_shift I 9 false x 5) (p [1;2;0;0;0;0;0]));
  holds (p [1;2] == op1 (fun x => dense_shift_assign I 9 false x 5) (p [1;2;0;0;0;0;0]));
  holds (p [1;2;0;0;0;0;0] == op1 (fun x => dense_shift I 9 false x (-5)) (p [1;2]));
  holds (p [1;2;0;0;0;0;0] == op1 (fun x => dense_shift_assign I 9 false x (-5)) (p [1;2]));
  holds (Ok dense_zero == op1 (fun x => dense_shift I 9 false x 5) (p [1;2]));
  holds (Ok dense_zero == op1 (fun x => dense_shift_assign I 9 false x 5) (p [1;2]));
  (* test_exp *)
  holds (p [1] == op1 (fun x => dense_pow I 99 x 0) (p [1;2])); powers 9 (p [1;2]);
  (* test_trim, test_degree *)
  match p [0;1;2] with Ok [a; b] => (ival a =? 1) && (ival b =? 2) | _ => false end;
  match p (repeat 0 (100 * 100)) with Ok [] => true | _ => false end; match p [] with Ok [] => true | _ => false end;
  rdeg I (p [0;0;0;-1;-2;3]) (Num 2)
] = true.
Proof. vm_compute. reflexivity. Qed.

Definition same_roots (a b : roots (flt F64)) : bool :=
  match a, b with
  | InfiniteRoots, InfiniteRoots | NoRoots, NoRoots => true
  | OneRealRoot x, OneRealRoot y => feqb x y
  | TwoRealRoots x y, TwoRealRoots x' y' => feqb x x' && feqb y y'
  | ThreeRealRoots x y z, ThreeRealRoots x' y' z' => feqb x x' && feqb y y' && feqb z z'
  | ManyRealRoots l, ManyRealRoots l' =>
    (length l =? length l')%nat && forallb (fun xy => feqb (fst xy) (snd xy)) (combine l l')
  | _, _ => false
  end.
(** The assertions only need the cube root of zero. *)
Local Notation RF := (ieee_rops F64 (fun x => x) (fun x => x) (fun _ _ => false)).
Definition froots (r : res (roots (flt F64))) (x : roots (flt F64)) : bool :=
  match r with Ok y => same_roots y x | _ => false end.
Definition dr (l : list Z) := op1 (dense_roots F RF (fun _ _ => []) 9 9) (q l).

Example polynomial_rs_docs : forallb (fun b => b) [
  (* 159-162 *)
  match dense_trim F (w [0;0;0;0;1;4;4]) with Ok l => holds (Ok l =.= Ok (w [1;4;4])) && (length l =? 3)%nat | _ => false end;
  (* 201-202, 214-217, 229-232 *)
  rdeg F (q [1;4;4]) (Num 2);
  dense_is_zero I dense_zero; match dense_terms I dense_zero with Ok [] => true | _ => false end;
  fails (rzero (p [0;1])); dense_is_zero I dense_zero;
  (* 270-281 *)
  froots (dr []) InfiniteRoots; froots (dr [1]) NoRoots; froots (dr [1;0]) (ManyRealRoots (w [0]));
  froots (dr [1;2]) (ManyRealRoots (w [-2])); froots (dr [1;4;4]) (ManyRealRoots (w [-2;-2]));
  froots (dr [1;6;12;8]) (ManyRealRoots (w [-2;-2;-2]));
  (* 304-305 *)
  holds (q [1;4;4] =.= dense_from_terms F [(g 1, 2%N); (g 4, 1%N); (g 4, 0%N)]);
  (* 336-338 *)
  ieq (op1 (fun x => dense_eval I x (i 1)) (p [1;2;3;4])) 10; ieq (op1 (fun x => dense_eval I x (i 10)) (p [1;2;3;4])) 1234;
  (* 375-376 *)
  holds (p [8;1] == op1 (dense_derivative I) (p [4;1;5]));
  (* 418-420 *)
  holds (dense_new F [fdiv (g 1) (g 3); g 1; g 5; g 0] =.= op1 (dense_integral F) (q [1;2;5]));
  (* 449-453 *)
  holds (op2 (dense_mul F) (q [1;2]) (q [1;2]) =.= op1 (fun x => dense_pow F 9 x 2) (q [1;2]));
  holds (op2 (dense_mul F) (op1 (fun x => dense_pow F 9 x 2) (q [1;2])) (q [1;2]) =.= op1 (fun x => dense_pow F 9 x 3) (q [1;2]));
  (* 612-617 *)
  fails (q [1;2] =.= q [2;2]); fails (q [1;2] =.= q [1;0]); holds (q [1;2] =.= op2 (dense_sub F) (q [2;2]) (q [1;0]));
  (* traits.rs 19-25, 43-46 *)
  match op1 (dense_terms I) (p [1;0;2;3]) with
  | Ok [(a, 3%N); (b, 1%N); (c, 0%N)] => (ival a =? 1) && (ival b =? 2) && (ival c =? 3) | _ => false end;
  holds (rzero (p [0;0])); fails (rzero (p [0;1]));
  (* integral.rs 75-79 *)
  feq (op1 (fun x => dense_integral_eval F x (g 0) (g 1)) (op1 (dense_integral F) (q [2;1]))) (g 2);
  feq (op1 (fun x => dense_integral_eval F x (g 0) (g 2)) (op1 (dense_integral F) (q [2;1]))) (g 6);
  feq (op1 (fun x => dense_integral_eval F x (g 1) (g 2)) (op1 (dense_integral F) (q [2;1]))) (g 4)
] = true.
Proof. vm_compute. reflexivity. Qed.

(** find_roots.rs, mod test *)
Example find_roots_rs_tests : forallb (fun b => b) [
  froots (dr []) InfiniteRoots;
  froots (find_roots F RF (fun _ _ => []) 9 (mono_degree F (MkMono (g 1) 0)) (mono_eval F (MkMono (g 1) 0)) 9 (mono_terms F (MkMono (g 1) 0))) NoRoots;
  froots (ts <- bino_terms F (MkBino (g 1) (g 2)) ;;
          find_roots F RF (fun _ _ => []) 9 (bino_degree F (MkBino (g 1) (g 2))) (bino_eval F (MkBino (g 1) (g 2))) 9 ts) (ManyRealRoots (w [-2]));
  froots (cubic_roots F RF (g 1) (g 6) (g 12) (g 8)) (ThreeRealRoots (g (-2)) (g (-2)) (g (-2)));
  froots (cubic_roots F RF (g 2) (g 12) (g 24) (g 16)) (ThreeRealRoots (g (-2)) (g (-2)) (g (-2)));
  froots (dr [1;6;12;8]) (ManyRealRoots (w [-2;-2;-2]))
] = true.
Proof. vm_compute. reflexivity. Qed.

(** SparsePolynomial *)
Definition s (l : list Z) := sparse_from_vec I (v l).
Definition t (l : list Z) := sparse_from_vec F (w l).
Definition seq_ {T} (O : num T) (a b : res (bmap T)) : res bool := x <- a ;; y <- b ;; Ok (sparse_eq O x y).
Infix "=s=" := (seq_ I) (at level 70). Infix "=t=" := (seq_ F) (at level 70).
Definition spowers (n : nat) (a : res (bmap (int I32))) : bool :=
  (fix go n k b := match n with
     | 0%nat => true
     | Datatypes.S n => holds (b =s= op1 (fun x => sparse_pow I 99 x k) a) && go n (k + 1)%N (op2 (sparse_mul I) b a)
     end) n 1%N a.
Definition sr (l : list Z) := op1 (sparse_roots F RF (fun _ _ => []) 9 9) (t l).

Example sparse_tests : forallb (fun b => b) [
  (* test_from, with the upcast u8 -> u16 *)
  (let m8 := sparse_from_vec (int_num true U8) (map (mk_int U8) [1;2;3;4]) in
   let m16 := sparse_from_vec (int_num true U16) (map (mk_int U16) [1;2;3;4]) in
   match m8, m16 with
   | Ok a, Ok b => sparse_eq (int_num true U16) (sparse_upcast (ncast (NI U8) (NI U16)) a) b
   | _, _ => false end);
  ieq (op1 (fun x => sparse_eval I x (i 5)) (s [1;2;3])) (25 + 2 * 5 + 3);
  holds (s [2;2] =s= op1 (sparse_derivative I) (s [1;2;3]));
  holds (s [2;2] =s= op1 (sparse_derivative I) (s [0;1;2;3]));
  holds (s [3;4;3] =s= op1 (sparse_derivative I) (s [1;2;3;4]));
  holds (s [1;1;1;0] =s= op1 (sparse_integral I) (s [3;2;1]));
  ieq (op1 (fun x => sparse_integral_eval I x (i 0) (i 1)) (op1 (sparse_integral I) (s [3;2;1]))) 3;
  holds (s [1;1;1;5] =s= op1 (fun x => sparse_replace_c I x (i 5)) (op1 (sparse_integral I) (s [3;2;1])));
  holds (s [1;3;5;7] =s= op2 (sparse_add I) (s [1;2;3;4]) (s [1;2;3]));
  holds (s [1;3;5;7] =s= op2 (sparse_add I) (s [1;2;3]) (s [1;2;3;4]));
  holds (s [1;3;5;7] =s= op2 (sparse_add_assign I) (s [1;2;3;4]) (s [1;2;3]));
  holds (s [1;3;5;7] =s= op2 (sparse_add_assign I) (s [1;2;3]) (s [1;2;3;4]));
  holds (s [1;0;0;0] =s= op2 (sparse_sub I) (s [1;2;3;4]) (s [2;3;4]));
  holds (s [-1;0;0;0] =s= op2 (sparse_sub I) (s [2;3;4]) (s [1;2;3;4]));
  holds (s [-1;-2;-3;0;5] =s= op1 (sparse_neg I) (s [1;2;3;0;-5]));
  holds (s [1;4;4] =s= op2 (sparse_mul I) (s [1;2]) (s [1;2]));
  holds (s [10;20] =s= op1 (fun x => sparse_scale I x (i 10)) (s [1;2]));
  holds (s [10;20] =s= op1 (fun x => sparse_scale_assign I x (i 10)) (s [1;2]));
  holds (s [0;0;0;1;2] =s= s [1;2]); fails (s [1;2;0;0;0] =s= s [1;2]);
  fails (s [1;2] =s= s [1;0]); fails (s [1;2] =s= s [3;7;4]);
  holds (s [1;2;0;0;0;0;0] =s= op1 (fun x => sparse_shift I 9 true x 5) (s [1;2]));
  holds (s [1;2] =s= op1 (fun x => sparse_shift I 9 true x (-5)) (s [1;2;0;0;0;0;0]));
  holds (s [1;2] =s= op1 (fun x => sparse_shift I 9 false x 5) (s [1;2;0;0;0;0;0]));
  holds (s [1;2;0;0;0;0;0] =s= op1 (fun x => sparse_shift I 9 false x (-5)) (s [1;2]));
  holds (Ok sparse_zero =s= op1 (fun x => sparse_shift I 9 false x 5) (s [1;2]));
  holds (s [1] =s= op1 (fun x => sparse_pow I 99 x 0) (s [1;2])); spowers 9 (s [1;2]);
  match s [0;0;0;-1;-2;3] with Ok m => degree_eqb (sparse_degree I m) (Num 2) | _ => false end;
  (* test_generic_sub *)
  holds (s [0] =s= op2 (sparse_sub_dense I) (s [0;0;0;-1;-2;3]) (p [-1;-2;3]));
  (* test_pow, in u32 *)
  (let O := int_num true U32 in let l := map (mk_int U32) [1;2;3;4;5] in
   match op1 (fun x => sparse_pow O 99 x 8) (sparse_from_vec O l), op1 (sparse_from_vec O) (op1 (fun x => dense_pow O 99 x 8) (dense_new O l)) with
   | Ok a, Ok b => sparse_eq O b a | _, _ => false end);
  (* documentation: 122, 135-137, 152-154, 199-209, 309, 394, 435, 474-475, 678-680 *)
  match t [1;4;4] with Ok m => degree_eqb (sparse_degree F m) (Num 2) | _ => false end;
  sparse_is_zero I sparse_zero; match sparse_terms I sparse_zero with [] => true | _ => false end;
  match s [0;1] with Ok m => negb (sparse_is_zero I m) | _ => false end;
  froots (sr []) InfiniteRoots; froots (sr [1]) NoRoots; froots (sr [1;0]) (ManyRealRoots (w [0]));
  froots (sr [1;2]) (ManyRealRoots (w [-2])); froots (sr [1;4;4]) (ManyRealRoots (w [-2;-2]));
  froots (sr [1;6;12;8]) (ManyRealRoots (w [-2;-2;-2]));
  match t [0;0;1;0;4;4] with
  | Ok m => match sparse_trim F m with
            | [(0%N, a); (1%N, b); (3%N, c)] => feqb a (g 4) && feqb b (g 4) && feqb c (g 1) | _ => false end
  | _ => false end;
  holds (s [8;1] =s= op1 (sparse_derivative I) (s [4;1;5]));
  holds (sparse_from_vec F [fdiv (g 1) (g 3); g 1; g 5; g 0] =t= op1 (sparse_integral F) (t [1;2;5]));
  holds (op2 (sparse_mul F) (t [1;2]) (t [1;2]) =t= op1 (fun x => sparse_pow F 9 x 2) (t [1;2]));
  holds (op2 (sparse_mul F) (op1 (fun x => sparse_pow F 9 x 2) (t [1;2])) (t [1;2]) =t= op1 (fun x => sparse_pow F 9 x 3) (t [1;2]));
  fails (t [1;2] =t= t [2;2]); fails (t [1;2] =t= t [1;0]); holds (t [1;2] =t= op2 (sparse_sub F) (t [2;2]) (t [1;0]))
] = true.
Proof. vm_compute. reflexivity. Qed.

(** Monomial *)
Local Notation m c d := (MkMono (i c) d%N).
Definition meq (a : res (mono (int I32))) (b : mono (int I32)) : bool := match a with Ok x => mono_eq I b x | _ => false end.
Definition iroots (r : roots (int I32)) (x : roots (int I32)) : bool :=
  match r, x with
  | InfiniteRoots, InfiniteRoots | NoRoots, NoRoots => true
  | OneRealRoot a, OneRealRoot b => ival a =? ival b
  | _, _ => false
  end.
Definition teq (a : res (term (int I32))) (b : term (int I32)) : bool := match a with Ok x => term_eqb I b x | _ => false end.

Example monomial_tests : forallb (fun b => b) [
  iroots (mono_root I (mono_zero I)) InfiniteRoots; iroots (mono_root I (m 1 0)) NoRoots; iroots (mono_root I (m 1 1)) (OneRealRoot (i 0));
  iroots (mono_root I (m 1 2)) (OneRealRoot (i 0));
  ieq (mono_eval I (m 5 2) (i 5)) 125; ieq (mono_eval I (m 1 0) (i 0)) 1;
  meq (mono_shift I 9 true (m 1 2) 5) (m 1 7); meq (mono_shift I 9 true (m 1 7) (-5)) (m 1 2);
  meq (mono_shift I 9 false (m 1 7) 5) (m 1 2); meq (mono_shift I 9 false (m 1 2) (-5)) (m 1 7);
  meq (mono_shift I 9 false (m 5 1) 5) (mono_zero I);
  meq (mono_derivative I (mono_zero I)) (mono_zero I); meq (mono_derivative I (m 5 0)) (mono_zero I);
  meq (mono_derivative I (m 5 3)) (m 15 2);
  holds (sparse_from_terms I [(i (5 / 3), 3%N)] =s= mono_integral I (m 5 2));
  (* documentation: 32-34, 68-70, 90-95, 111, 123-126, 216-217, 252-255, 275-279, 298-302 *)
  degree_eqb (mono_degree F (MkMono (g 3) 2)) (Num 2);
  teq (Ok (mono_term_with_degree I (m 5 2) 2)) (TTerm (i 5) 2); teq (Ok (mono_term_with_degree I (m 5 2) 1)) ZeroTerm;
  degree_eqb (mono_degree F (MkMono (g 0) 2)) NegInf; degree_eqb (mono_degree F (MkMono (g 1) 0)) (Num 0);
  mono_is_zero I (mono_zero I); negb (mono_is_zero I (m 1 1)); mono_is_zero I (mono_set_to_zero I (m 1 1));
  match mono_derivative F (MkMono (g 3) 2) with Ok x => mono_eq F (MkMono (g 6) 1) x | _ => false end;
  holds (sparse_from_terms F [(g 1, 3%N)] =t= mono_integral F (MkMono (g 3) 2));
  match mono_mul I (m 2 1) (m 2 1) with Ok x => meq (mono_pow I (m 2 1) 2) x | _ => false end;
  match op1 (fun x => mono_mul I x (m 2 1)) (mono_pow I (m 2 1) 2) with Ok x => meq (mono_pow I (m 2 1) 3) x | _ => false end;
  mono_eq I (m 2 2) (m 2 2); negb (mono_eq I (m 2 2) (m 1 2))
] = true.
Proof. vm_compute. reflexivity. Qed.

(** LinearBinomial *)
Local Notation b2 x y := (MkBino (i x) (i y)).
Local Notation f2 x y := (MkBino (g x) (g y)).
Definition irootsr (r : res (roots (int I32))) x : bool := match r with Ok y => iroots y x | _ => false end.

Example binomial_tests : forallb (fun b => b) [
  irootsr (bino_root I (b2 0 0)) InfiniteRoots; irootsr (bino_root I (b2 0 1)) NoRoots;
  irootsr (bino_root I (b2 1 2)) (OneRealRoot (i (-2)));
  degree_eqb (bino_degree I (bino_zero I)) NegInf; degree_eqb (bino_degree I (b2 0 1)) (Num 0);
  degree_eqb (bino_degree I (b2 1 0)) (Num 1); degree_eqb (bino_degree I (b2 2 1)) (Num 1);
  ieq (bino_eval I (b2 5 0) (i 5)) 25;
  bino_eq I (bino_shr I (b2 1 0) 1) (b2 0 1); bino_eq I (bino_shr I (b2 1 2) 5) (bino_zero I);
  bino_eq I (bino_derivative I (bino_zero I)) (bino_zero I); bino_eq I (bino_derivative I (b2 0 1)) (bino_zero I);
  bino_eq I (bino_derivative I (b2 1 3)) (b2 0 1);
  (* documentation: 30-31, 63-68, 91-93, 109-114, 132-134, 146-149, 189-191, 208-209, 233-235 *)
  degree_eqb (bino_degree I (b2 3 2)) (Num 1);
  froots (bino_root F (f2 1 2)) (OneRealRoot (g (-2)));
  teq (bino_term_with_degree I (b2 5 0) 1) (TTerm (i 5) 1); teq (bino_term_with_degree I (b2 5 0) 0) ZeroTerm;
  degree_eqb (bino_degree F (f2 3 2)) (Num 1); degree_eqb (bino_degree F (f2 0 1)) (Num 0);
  bino_is_zero I (bino_zero I); match bino_terms I (bino_zero I) with Ok [] => true | _ => false end;
  negb (bino_is_zero I (b2 1 1));
  ieq (bino_eval I (b2 1 2) (i 5)) 7; ieq (bino_eval I (b2 1 2) (i 0)) 2;
  bino_eq F (f2 0 3) (bino_derivative F (f2 3 1));
  holds (q [1;0;0] =.= bino_integral F (f2 2 0))
] = true.
Proof. vm_compute. reflexivity. Qed.

(** QuadraticTrinomial *)
Local Notation b3 x y z := (MkTrino (i x) (i y) (i z)).
Local Notation f3 x y z := (MkTrino (g x) (g y) (g z)).

Example trinomial_tests : forallb (fun b => b) [
  ieq (trino_eval I (b3 5 0 0) (i 5)) 125;
  trino_eq I (b3 0 0 1) (trino_shr I (b3 1 0 0) 2); trino_eq I (trino_zero I) (trino_shr I (b3 1 2 3) 5);
  match trino_derivative I (trino_zero I) with Ok x => trino_eq I (trino_zero I) x | _ => false end;
  match trino_derivative I (b3 0 0 1) with Ok x => trino_eq I (trino_zero I) x | _ => false end;
  match trino_derivative I (b3 1 2 3) with Ok x => trino_eq I (b3 0 2 2) x | _ => false end;
  (* test_roots_pos, test_complex_roots_neg, in i16 *)
  (let O := int_num true I16 in let j := mk_int I16 in
   match trino_roots O (int_rops true I16 99) (MkTrino (j 1) (j 4) (j 4)) with
   | Ok (TwoRealRoots a b) => (ival a =? -2) && (ival b =? -2) | _ => false end);
  (let O := int_num true I16 in let j := mk_int I16 in
   match trino_roots O (int_rops true I16 99) (MkTrino (j 1) (j 0) (j 4)) with
   | Ok (TwoComplexRoots (a, b) (c, d)) => (ival a =? 0) && (ival b =? 2) && (ival c =? 0) && (ival d =? -2) | _ => false end);
  (* documentation: 122-125, 141-148, 168, 180-183, 223-225, 242-243, 272-274 *)
  teq (trino_term_with_degree I (b3 1 0 3) 2) (TTerm (i 1) 2); teq (trino_term_with_degree I (b3 1 0 3) 1) ZeroTerm;
  teq (trino_term_with_degree I (b3 1 0 3) 0) (TTerm (i 3) 0);
  degree_eqb (trino_degree I (b3 1 2 3)) (Num 2); degree_eqb (trino_degree I (b3 0 2 3)) (Num 1);
  degree_eqb (trino_degree I (b3 0 0 3)) (Num 0); degree_eqb (trino_degree I (b3 0 0 0)) NegInf;
  trino_is_zero I (trino_zero I); negb (trino_is_zero I (b3 1 1 1));
  ieq (trino_eval I (b3 1 2 3) (i 1)) 6; ieq (trino_eval I (b3 1 2 3) (i 0)) 3;
  match trino_derivative F (f3 3 2 1) with Ok x => trino_eq F (f3 0 6 2) x | _ => false end;
  holds (q [1;0;0;0] =.= trino_integral F (f3 3 0 0))
] = true.
Proof. vm_compute. reflexivity. Qed.

(** ArrayPolynomial *)
Example array_tests : forallb (fun b => b) [
  match trino_eval I (b3 1 2 3) (i 5) with Ok x => ieq (arr_eval I (v [1;2;3]) (i 5)) (ival x) | _ => false end;
  match arr_derivative I (v [4;1;5]) with Ok x => arr_eq I (v [0;8;1]) x | _ => false end;
  match arr_derivative I (v [4;1]) with Ok x => arr_eq I (v [0;4]) x | _ => false end;
  match arr_derivative I (v [99]) with Ok x => arr_eq I (v [0]) x | _ => false end;
  match arr_derivative I [] with Ok x => arr_eq I [] x | _ => false end;
  holds (op1 (dense_integral F) (q [1;2;5]) =.= arr_integral F (w [1;2;5]))
] = true.
Proof. vm_compute. reflexivity. Qed.

(** poly_math.rs *)
Definition mok {P} (a : mutres P) (k : P -> bool) : bool := match a with Ok (x, None) => k x | _ => false end.
Definition ts (l : list Z) : list (int I32 * N) := match op1 (dense_terms I) (p l) with Ok x => x | _ => [] end.
Definition sts (l : list Z) : list (int I32 * N) := match s l with Ok x => sparse_terms I x | _ => [] end.

Example poly_math_tests : forallb (fun b => b) [
  (* test_poly_add, test_poly_sub *)
  holds (poly_add_macro I [[]; ts [1;2;3]] == p [1;2;3]);
  mok (poly_add_into (dense_mut I) [ts [1;2;3]] dense_zero) (fun x => holds (Ok x == p [1;2;3]));
  holds (poly_sub_macro I [] [ts [1;2;3]] == op1 (dense_neg I) (p [1;2;3]));
  mok (poly_sub_into (dense_mut I) [ts [1;2;3]] dense_zero) (fun x => holds (Ok x == op1 (dense_neg I) (p [1;2;3])));
  (* documentation: 39-42, 96-99, 127-130 *)
  mok (add_poly (dense_mut I) (sts [1;2;3;4]) dense_zero) (fun x => holds (Ok x == p [1;2;3;4]));
  mok (mul_poly_vec I (dense_mut I) (sts [1;2;3;4]) [] dense_zero) (fun x => holds (Ok x == Ok dense_zero));
  mok (sub_poly (dense_mut I) (sts [1;2;3;4]) dense_zero) (fun x => holds (Ok x == p [-1;-2;-3;-4]))
] = true.
Proof. vm_compute. reflexivity. Qed.

(** strings.rs *)
Definition streq (a b : str) : bool := if list_eq_dec N.eq_dec a b then true else false.
Definition shown (a : res str) (x : string) : bool := match a with Ok y => streq (lit x) y | _ => false end.
Definition sread (x : string) (l : list Z) : bool :=
  match sparse_from_str I X (lit x) with Ok (inl a) => holds (s l =s= Ok a) | _ => false end.

Example strings_tests : forallb (fun b => b) [
  sread "255x^2+15x+3" [255;15;3]; sread "5x^2" [5;0;0]; sread "255x^2-15x^1+3x^0" [255;-15;3]; sread "-x^1" [-1;0];
  sread "5+x" [1;5]; sread "5x+11x" [16;0];
  match sparse_from_str I X (lit "5+x^") with Ok (inr _) => true | _ => false end;
  shown (op1 (sparse_show I X) (s [0])) "0"; shown (op1 (sparse_show I X) (s [])) "0"; shown (op1 (sparse_show I X) (s [0;0])) "0";
  shown (op1 (sparse_show I X) (s [-1;-2;3])) "-x^2 - 2x + 3";
  shown (op1 (sparse_show I X) (s [-1;-2;0;0;3])) "-x^4 - 2x^3 + 3";
  shown (op1 (sparse_show I X) (s [-1;-1;-1;0])) "-x^3 - x^2 - x";
  shown (op1 (sparse_show I X) (s [-2;-1;-1;0])) "-2x^3 - x^2 - x";
  shown (op1 (dense_integral_show I X) (op1 (dense_integral I) (p [-3;-2;1]))) "-x^3 - x^2 + x + C";
  streq (mono_show I X (m 5 2)) (lit "5x^2");
  shown (op1 (dense_show I X) (p [0])) "0"; shown (dense_show I X []) "0"; shown (dense_show I X (v [0])) "0"; shown (dense_show I X (v [0;0])) "0";
  shown (op1 (dense_show I X) (p [-1;-2;3])) "-x^2 - 2x + 3";
  shown (op1 (dense_show I X) (p [-1;-2;0;0;3])) "-x^4 - 2x^3 + 3";
  shown (op1 (dense_show I X) (p [-1;-1;-1;0])) "-x^3 - x^2 - x";
  shown (op1 (dense_show I X) (p [-2;-1;-1;0])) "-2x^3 - x^2 - x";
  shown (op1 (dense_show I X) (p [-1])) "-1"
] = true.
Proof. vm_compute. reflexivity. Qed.

(** terms.rs *)
Definition tread (x : string) (y : term (int I32)) : bool :=
  match term_from_str I X (lit x) with inl a => term_eqb I y a | _ => false end.
Definition terr (x : string) : bool := match term_from_str I X (lit x) with inr _ => true | _ => false end.
Local Notation F4 := (float_num true F32 (fun x _ => x)).
Definition fread (x : string) (y : Z) (d : N) : bool :=
  match term_from_str F4 (float_txt F32 (fun _ => [])) (lit x) with inl a => term_eqb F4 (TTerm (f_of_Z F32 y) d) a | _ => false end.

Example terms_tests : forallb (fun b => b) [
  tread "5x^2" (TTerm (i 5) 2); tread "+5 x ^ 2" (TTerm (i 5) 2); terr "+5 x ^ "; terr "5x^^2"; tread "+5 x " (TTerm (i 5) 1);
  tread "+5 " (TTerm (i 5) 0); terr "+5^ "; tread "-1" (TTerm (i (-1)) 0); tread "x" (TTerm (i 1) 1); tread "-x" (TTerm (i (-1)) 1);
  tread "+x" (TTerm (i 1) 1); fread "x" 1 1; fread "-x" (-1) 1; fread "+x" 1 1; tread "000" ZeroTerm;
  terr "+"; terr "-"; terr ""; terr "    "
] = true.
Proof. vm_compute. reflexivity. Qed.
