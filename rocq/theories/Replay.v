(** The repository's own tests and documentation examples, as programs over the
    model in f64. Model of /repo/src/utils.rs, /repo/src/macros.rs, and of the
    [#[cfg(test)]] modules and documentation examples of the files named below.

    A test is an [outcome bool]: [Ret true] when every assertion holds,
    [Ret false] when one fails, [Panic] when the code under test panics first.
    Not here: the test of ifdd.rs (see PropIfdd.v) and the example
    of lib.rs:1-52 (see DocExample.v). *)
From Coq Require Import List Arith ZArith Bool.
From Flocq Require Import IEEE754.BinarySingleNaN.
From Verif Require Import Base Scalar ScalarF64 HMap NdArray Features Coeffs Kernels TileCoding Basis SumOrder.
Import ListNotations.
Local Open Scope nat_scope.

(** One assertion, then the rest. *)
Definition check (b : outcome bool) (rest : outcome bool) : outcome bool :=
  let* x := b in if x then rest else Ret false.
Definition done : outcome bool := Ret true.

(** All of a list, stopping at the first that fails. *)
Definition checks (l : list (outcome bool)) : outcome bool := fold_right check done l.

(** [r.unwrap()] *)
Definition unwrap {A} (x : outcome (result A)) : outcome A :=
  let* r := x in match r with Ok a => Ret a | Err _ => Panic end.

Section Utils.
  Context {F : Type} `{Scalar F}.

  (** utils.rs:3-5. [is_nan x] is [x != x]. *)
  Definition eq_with_nan_eq (a b tol : F) : bool :=
    (negb (feqb a a) && negb (feqb b b)) || fltb (fabs (fsub a b)) tol.

  (** utils.rs:7-17: [zip] stops at the shorter of the two. *)
  Definition compare_floats (a b : list F) (tol : F) : bool :=
    forallb (fun xy => fltb (fabs (fsub (fst xy) (snd xy))) tol) (combine a b).

  (** macros.rs:4-10 ([assert_features!]). *)
  Definition assert_features (projector : basis F) (tol : F) (cases : list (list F * list F)) : outcome bool :=
    checks (map (fun c => let* f := unwrap (project projector (fst c)) in
                          let* d := into_dense f in
                          Ret (compare_floats d (snd c) tol)) cases).

  (** [assert_eq!(x, y)] on f64 and on usize. *)
  Definition eqf (x : outcome F) (y : F) : outcome bool := let* v := x in Ret (feqb v y).
  Definition eqn (x y : nat) : outcome bool := Ret (x =? y).
End Utils.

Section Tests.
  Context (P : Platform).
  #[local] Instance on_platform : Scalar f64 := ScalarF64 P.
  Local Notation lit := (@flit f64 _).
  Local Notation "0.0" := (lit 0%Z 1%positive).
  Local Notation "1.0" := (lit 1%Z 1%positive).
  Local Notation tenth k := (lit k%Z 10%positive).
  Local Notation feq a b := (@features_eqb f64 _ a b).

  (** ** features.rs *)

  (** features.rs:802-807. *)
  Definition make_sparse (n : nat) (indices : list nat) : Features f64 :=
    Sparse (MkSparse n (hm_collect (map (fun i => (i, 1.0)) indices))).

  Definition ones (n : nat) : list f64 := repeat 1.0 n.

  (** features.rs:809-833. *)
  Definition test_sparse : outcome bool :=
    let f := make_sparse 11 [0; 5; 10] in
    check (Ret (is_sparse f)) (check (Ret (negb (is_dense f))) (check (eqn (@n_active f64 _ f) 3)
    (let f := @remove f64 _ f 1 in
     check (feq f (make_sparse 11 [0; 5; 10]))
     (check (eqf (dot f (ones 11)) (lit 3 1)) (check (eqf (dot f (zeros 11)) 0.0)
     (let f := remove f 5 in
      checks [feq f (make_sparse 11 [0; 10]);
              eqf (dot f (ones 11)) (lit 2 1); eqf (dot f (zeros 11)) 0.0;
              eqf (index f 0) 1.0; eqf (index f 1) 0.0; eqf (index f 5) 0.0; eqf (index f 10) 1.0])))))).

  Definition six : list f64 := [0.0; tenth 1; tenth 2; tenth 1; 0.0; tenth 6].

  (** features.rs:835-861. *)
  Definition test_dense : outcome bool :=
    let f := dense six in
    check (Ret (is_dense f)) (check (Ret (negb (is_sparse f))) (check (eqn (@n_active f64 _ f) 4)
    (let f := @remove f64 _ f 10 in
     check (feq f (dense six))
     (check (eqf (dot f (ones 6)) 1.0) (check (eqf (dot f (zeros 6)) 0.0)
     (let f := remove f 1 in
      checks [feq f (dense [0.0; 0.0; tenth 2; tenth 1; 0.0; tenth 6]);
              eqf (dot f (ones 6)) (tenth 9); eqf (dot f (zeros 6)) 0.0;
              eqf (index f 0) 0.0; eqf (index f 1) 0.0; eqf (index f 2) (tenth 2);
              eqf (index f 3) (tenth 1); eqf (index f 4) 0.0; eqf (index f 5) (tenth 6)])))))).

  (** features.rs:863-882. *)
  Definition test_map_inplace : outcome bool :=
    let f := @unitary f64 _ 11 [0; 5; 10] in
    let* f := @fmap_inplace f64 _ f (fun a => a) in
    check (Ret (is_sparse f)) (check (eqf (Ret (@fsum f64 _ f)) (lit 3 1))
    (let* f := @fmap_inplace f64 _ f (fun a => fmul a (lit 2 1)) in
     check (Ret (is_sparse f)) (check (eqf (Ret (@fsum f64 _ f)) (lit 6 1))
     (let* f := @fmap_inplace f64 _ f (fun _ => 1.0) in
      check (Ret (is_dense f)) (check (eqf (Ret (@fsum f64 _ f)) (lit 11 1))
      (let* f := @fmap_inplace f64 _ f (fun a => a) in
       check (Ret (is_dense f)) (check (eqf (Ret (@fsum f64 _ f)) (lit 11 1)) done))))))).

  (** features.rs:884-905. *)
  Definition test_merge_inplace : outcome bool :=
    let f1 := @unitary f64 _ 11 [0; 5; 10] in
    let f2 := dense six in
    let* f1 := @merge_inplace f64 _ f1 f2 (fun x y => fadd x y) in
    checks [Ret (is_dense f1);
            eqf (index f1 0) 1.0; eqf (index f1 1) (tenth 1); eqf (index f1 2) (tenth 2);
            eqf (index f1 3) (tenth 1); eqf (index f1 4) 0.0; eqf (index f1 5) (tenth 16);
            eqf (index f1 6) 0.0; eqf (index f1 7) 0.0; eqf (index f1 8) 0.0;
            eqf (index f1 9) 0.0; eqf (index f1 10) 1.0].

  (** features.rs:218-229 ([remove]). *)
  Definition doc_remove : outcome bool :=
    let d := remove (dense [0.0; tenth 2; tenth 4; tenth 4]) 1 in
    let s := remove (@unitary f64 _ 16 [0; 10; 15]) 10 in
    let* i := @from_indices f64 _ [0; 15] in
    checks [feq d (dense [0.0; 0.0; tenth 4; tenth 4]); feq s i].

  (** features.rs:258-265 ([into_dense]). *)
  Definition doc_into_dense : outcome bool :=
    let* d := into_dense (@unitary f64 _ 5 [0; 2; 1; 4]) in
    Ret (@vec_eqb f64 _ d [1.0; 1.0; 1.0; 0.0; 1.0]).

  (** features.rs:283-290 ([stack]). *)
  Definition doc_stack : outcome bool :=
    let* s := @stack f64 _ (dense [0.0; 1.0]) (dense [1.0; 0.0; 1.0]) in
    feq s (dense [0.0; 1.0; 1.0; 0.0; 1.0]).

  (** features.rs:564-572 ([dot]). *)
  Definition doc_dot : outcome bool :=
    let weights := [lit 2 1; lit 5 1; lit 1 1] in
    let* i := @from_indices f64 _ [0; 1] in
    checks [eqf (dot (dense [0.0; tenth 2; tenth 8]) weights) (tenth 18); eqf (dot i weights) (lit 7 1)].

  (** features.rs:604-622 ([matmul]); [all_close] compares within the tolerance. *)
  Definition doc_matmul : outcome bool :=
    let weights := MkMatrix [[lit 2 1; lit 5 1]; [lit 1 1; lit 3 1]; [lit 1 1; lit 3 1]] 2 in
    let* a := @matmul f64 _ (dense [tenth 1; tenth 2; tenth 7]) weights in
    let* i := @from_indices f64 _ [0; 1] in
    let* b := @matmul f64 _ i weights in
    checks [Ret (compare_floats a [tenth 11; tenth 32] (lit 1 10000000));
            Ret (@vec_eqb f64 _ b [lit 3 1; lit 8 1])].

  (** ** The bases *)

  (** basis/mod.rs:29-39 ([Basis::project]). *)
  Definition doc_bias : outcome bool :=
    let* f := unwrap (@project f64 _ bias_unit [0.0]) in feq f (dense [1.0]).

  (** basis/polynomial/mod.rs:13-37: first and second order. *)
  Definition doc_polynomial : outcome bool :=
    let p1 := @polynomial_new f64 1 1 in
    let p2 := @polynomial_new f64 1 2 in
    let case p i o := let* f := unwrap (@project f64 _ p [i]) in feq f (dense o) in
    let h := lit 1 2 in let mh := lit (-1) 2 in let m1 := lit (-1) 1 in let q := lit 1 4 in
    checks [case p1 m1 [m1]; case p1 mh [mh]; case p1 0.0 [0.0]; case p1 h [h]; case p1 1.0 [1.0];
            case p2 m1 [m1; 1.0]; case p2 mh [mh; q]; case p2 0.0 [0.0; 0.0]; case p2 h [h; q];
            case p2 1.0 [1.0; 1.0]].

  (** kernelised.rs:143-153. *)
  Definition make_net (centroids : list (list f64)) (ls : list f64) : basis f64 :=
    kernel_homogeneous centroids (MkKernel KExpQuad 1.0 ls).
  Definition make_net_1d (centroids : list f64) (ls : f64) : basis f64 :=
    make_net (map (fun c => [c]) centroids) [ls].

  (** kernelised.rs:155-167. *)
  Definition test_kernel_n_features : outcome bool :=
    let q := lit 1 4 in
    checks [eqn (dim (make_net_1d [0.0] q)) 1; eqn (dim (make_net_1d [0.0; lit 1 2; 1.0] q)) 3;
            eqn (dim (make_net_1d (repeat 0.0 10) q)) 10; eqn (dim (make_net_1d (repeat 0.0 100) q)) 100].

  (** [(p[i] - y).abs() < 1e-6] *)
  Definition near (p : list f64) (i : nat) (y : f64) : outcome bool :=
    let* v := vget p i in Ret (@fltb f64 _ (fabs (fsub v y)) (lit 1 1000000)).

  (** kernelised.rs:169-177. *)
  Definition test_projection_1d : outcome bool :=
    let net := make_net_1d [0.0; lit 1 2; 1.0] (lit 1 4) in
    let* f := unwrap (@project f64 _ net [lit 1 4]) in
    let* p := @into_dense f64 _ f in
    checks [near p 0 (lit 6065307 10000000); near p 1 (lit 6065307 10000000); near p 2 (lit 111090 10000000)].

  (** kernelised.rs:179-190. *)
  Definition test_projection_2d : outcome bool :=
    let net := make_net [[0.0; lit (-10) 1]; [lit 1 2; lit (-8) 1]; [1.0; lit (-6) 1]] [lit 1 4; lit 2 1] in
    let* f := unwrap (@project f64 _ net [lit 67 100; lit (-7) 1]) in
    let* p := @into_dense f64 _ f in
    checks [near p 0 (lit 89491 10000000); near p 1 (lit 7003325 10000000); near p 2 (lit 369280 1000000)].

  (** tile_coding.rs:123-134. *)
  Definition bin_eqb (state : list f64) (z : list Z) : outcome bool :=
    let b := @bin_state f64 _ state 16 in
    Ret ((length b =? length z) && forallb (fun p => (fst p =? snd p)%Z) (combine b z)).
  Definition test_bin_state_2d : outcome bool :=
    let nn := lit 99 100 in let m1 := lit (-1) 1 in let h := lit 1 2 in
    checks [bin_eqb [0.0; 0.0] [0; 0]%Z; bin_eqb [nn; nn] [15; 15]%Z; bin_eqb [1.0; 1.0] [16; 16]%Z;
            bin_eqb [0.0; 1.0] [0; 16]%Z; bin_eqb [m1; m1] [-16; -16]%Z;
            bin_eqb [0.0; h] [0; 8]%Z; bin_eqb [h; 0.0] [8; 0]%Z; bin_eqb [h; h] [8; 8]%Z].

  (** stack.rs:74-91, 93-105, 107-124. *)
  Definition stack_case (b : basis f64) (output : Features f64) : outcome bool :=
    let case i := let* f := unwrap (@project f64 _ b i) in feq f output in
    let m1 := lit (-1) 1 in
    checks [eqn (dim b) 20; case [0.0]; case [0.0; 1.0]; case [m1; 1.0]].
  Definition test_stack_constant : outcome bool :=
    stack_case (BStack (BFixedDense (repeat 0.0 10)) (BFixedDense (repeat 1.0 10)))
      (Dense (repeat 0.0 10 ++ repeat 1.0 10)).
  Definition test_stack_indices : outcome bool :=
    stack_case (BStack (BFixedSparse 10 [5]) (BFixedSparse 10 [0])) (@unitary f64 _ 20 [5; 10]).
  Definition test_stack_mixed : outcome bool :=
    stack_case (BStack (BFixedDense (repeat 1.0 10)) (BFixedSparse 10 [0]))
      (Dense (repeat 1.0 11 ++ repeat 0.0 9)).

  (** uniform_grid.rs:76-99, 101-129, 131-166: the body of the loops, for the
      input of the bins [bins] on a grid of [length bins] copies of [ep]. *)
  Definition grid_case (ep : equipartition f64) (bins : list nat) : outcome bool :=
    let t := grid_new (repeat ep (length bins)) in
    let total := 10 ^ length bins in
    let active := fold_left (fun acc b => acc * 10 + b) bins 0 in
    check (eqn (dim t) total)
    (let* fv := unwrap (@project f64 _ t (map (@fofnat f64 _) bins)) in
     check (eqn (n_features fv) total) (check (eqn (@n_active f64 _ fv) 1)
     (let* u := uget fv active in
      check (Ret (match u with Some a => @fltb f64 _ 0.0 a | None => false end))
      (let* expected := vset (repeat 0.0 total) active 1.0 in
       let* d := @into_dense f64 _ fv in
       Ret (@vec_eqb f64 _ expected d))))).

  (** fourier.rs:87-96. *)
  Definition test_fourier_n_features : outcome bool :=
    let get_n order := dim (@fourier_new f64 _ order [(0.0, 1.0)]) in
    checks [eqn (get_n 1) 1; eqn (get_n 2) 2; eqn (get_n 3) 3; eqn (get_n 4) 4; eqn (get_n 5) 5].

  Local Notation tol6 := (lit 1%Z 1000000%positive).
  Local Notation int k := (lit k%Z 1%positive).
  Local Notation half k := (lit k%Z 2%positive).
  (** [1.0 / 3.0] and [2.0 / 3.0] *)
  Local Notation third k := (@fdiv f64 _ (lit k%Z 1%positive) (lit 3%Z 1%positive)).

  (** fourier.rs:98-108. *)
  Definition test_bounds : outcome bool :=
    assert_features (@fourier_new f64 _ 1 [(0.0, 1.0)]) tol6
      [([int (-2)], [1.0]); ([int 2], [1.0]); ([int (-1)], [int (-1)]); ([int 3], [int (-1)])].

  (** fourier.rs:110-123. *)
  Definition test_order1_1d : outcome bool :=
    let f := @fourier_new f64 _ 1 [(0.0, 1.0)] in
    check (eqn (dim f) 1) (assert_features f tol6
      [([0.0], [1.0]); ([third 1], [half 1]); ([half 1], [0.0]);
       ([third 2], [half (-1)]); ([1.0], [int (-1)])]).

  (** fourier.rs:125-138. *)
  Definition test_order2_1d : outcome bool :=
    let f := @fourier_new f64 _ 2 [(0.0, 1.0)] in
    check (eqn (dim f) 2) (assert_features f tol6
      [([0.0], [1.0; 1.0]); ([third 1], [half 1; half (-1)]); ([half 1], [0.0; int (-1)]);
       ([third 2], [half (-1); half (-1)]); ([1.0], [int (-1); 1.0])]).

  (** fourier.rs:140-155. *)
  Definition test_order1_2d : outcome bool :=
    let f := @fourier_new f64 _ 1 [(0.0, 1.0); (int 5, int 6)] in
    let m1 := int (-1) in
    check (eqn (dim f) 3) (assert_features f tol6
      [([0.0; int 5], repeat 1.0 3); ([half 1; int 5], [1.0; 0.0; 0.0]); ([0.0; half 11], [0.0; 1.0; 0.0]);
       ([half 1; half 11], [0.0; 0.0; m1]); ([1.0; half 11], [0.0; m1; 0.0]);
       ([half 1; int 6], [m1; 0.0; 0.0]); ([1.0; int 6], [m1; m1; 1.0])]).

  (** fourier.rs:157-173. *)
  Definition test_order2_2d : outcome bool :=
    let f := @fourier_new f64 _ 2 [(0.0, 1.0); (int 5, int 6)] in
    let m1 := int (-1) in
    check (eqn (dim f) 8) (assert_features f tol6
      [([0.0; int 5], repeat 1.0 8);
       ([half 1; int 5], [1.0; 1.0; 0.0; 0.0; 0.0; m1; m1; m1]);
       ([0.0; half 11], [0.0; m1; 1.0; 0.0; m1; 1.0; 0.0; m1]);
       ([half 1; half 11], [0.0; m1; 0.0; m1; 0.0; m1; 0.0; 1.0]);
       ([half 1; int 6], [m1; 1.0; 0.0; 0.0; 0.0; m1; 1.0; m1]);
       ([1.0; int 6], [m1; 1.0; m1; 1.0; m1; 1.0; m1; 1.0])]).

  (** ** The randomised tests, on one input each *)

  (** constant.rs:110-117; [==] on Vec<f64>. *)
  Definition test_project_general (constants input : list f64) : outcome bool :=
    let* f := unwrap (@project f64 _ (BFixedDense constants) input) in
    let* activations := @into_dense f64 _ f in
    Ret ((length activations =? length constants) && @vec_eqb f64 _ activations constants).

  (** tile_coding.rs:117-121. *)
  Definition test_bin_state_1d (state : f64) (n_tilings : nat) : outcome bool :=
    let* b := vget (@bin_state f64 _ [state] n_tilings) 0 in
    Ret (b =? @ffloor_isize f64 _ (fmul state (fofnat n_tilings)))%Z.

  (** normalisation.rs:275-284 and 286-295; [iter.sum()] folds from 0.0. Note
      that the difference is compared without taking its absolute value. *)
  Definition below (norm : f64) (f constants : list f64) : bool :=
    forallb (fun xy => @fltb f64 _ (fsub (fst xy) (fdiv (snd xy) norm)) (lit 1 10000000)) (combine f constants).
  Definition test_l1 (constants : list f64) : outcome bool :=
    let* f := unwrap (@project f64 _ (BL1 (BFixedDense constants)) [0.0]) in
    let* f := @into_dense f64 _ f in
    let abssum := fold_left fadd (map (@fabs f64 _) constants) 0.0 in
    Ret (below abssum f constants).
  Definition test_l2 (constants : list f64) : outcome bool :=
    let* f := unwrap (@project f64 _ (BL2 (BFixedDense constants)) [0.0]) in
    let* f := @into_dense f64 _ f in
    let sqsum := fold_left fadd (map (fun v => @fmul f64 _ v v) constants) 0.0 in
    Ret (below (fsqrt sqsum) f constants).
End Tests.
