(** C95: training sees features only through their inner products. Proofs are in
    Gram.v.

    [hyper R] names an optimiser and its parameters, [construct n p] is that
    optimiser as its constructor makes it for [n] weights. *)
From Coq Require Import List Arith Lia Reals Lra.
From Verif Require Import Base Scalar ScalarR HMap NdArray VecFacts Features Spec FeatureFacts
  Optim OptimSpec OptimFacts OptimReal Lfa LfaSpec LfaFacts LfaReal Passes HeavyBall KernelFit Gram.
Import ListNotations.
Local Open Scope R_scope.

(** ** C95 *)

(** Two approximators, over bases of any two dimensions. If the features of the
    inputs in [X] have the same inner products and the same initial predictions,
    no calls on these inputs ever tell the approximators apart. *)
Theorem C95_inner_products : forall I p (b b' : Basis R I) X phi phi' w w' cs, linear_kind p ->
  gives_on b (length w) X phi -> gives_on b' (length w') X phi' ->
  (forall x y, X x -> X y -> inner (phi x) (phi y) = inner (phi' x) (phi' y)) ->
  (forall x, X x -> predict (phi x) w = predict (phi' x) w') ->
  Forall (call_on X phi phi') cs ->
  exists a a', s_run LibOptimiser cs (MkLFA b w (construct (length w) p)) = Ret a /\
    s_run LibOptimiser cs (MkLFA b' w' (construct (length w') p)) = Ret a' /\
    forall x, X x -> exists v, s_evaluate a x = Ret (Ok v) /\ s_evaluate a' x = Ret (Ok v).
Proof. exact @gram_same. Qed.
Print Assumptions C95_inner_products.

(** And that is all they see: with a positive rate, the same evaluations after
    every sequence of calls mean the same inner products. *)
Theorem C95_iff : forall I p (b b' : Basis R I) X phi phi' w w', linear_kind p -> 0 < rate_of p ->
  gives_on b (length w) X phi -> gives_on b' (length w') X phi' ->
  ((forall x, X x -> predict (phi x) w = predict (phi' x) w') /\
   (forall x y, X x -> X y -> inner (phi x) (phi y) = inner (phi' x) (phi' y)) <->
   forall cs a a' x, Forall (call_on X phi phi') cs ->
     s_run LibOptimiser cs (MkLFA b w (construct (length w) p)) = Ret a ->
     s_run LibOptimiser cs (MkLFA b' w' (construct (length w') p)) = Ret a' ->
     X x -> s_evaluate a x = s_evaluate a' x).
Proof.
  intros I p b b' X phi phi' w w' Lk Lr G G'. split; [|exact (gram_needed p b b' X phi phi' w w' Lk Lr G G')].
  intros [P0 Gr] cs a a' x Cs E E' Xx.
  destruct (gram_same p b b' X phi phi' w w' cs Lk G G' Gr P0 Cs) as (a1 & a1' & E1 & E1' & S).
  rewrite E in E1. injection E1 as <-. rewrite E' in E1'. injection E1' as <-.
  destruct (S x Xx) as (v & V & V'). rewrite V, V'. reflexivity.
Qed.
Print Assumptions C95_iff.

(** Rotating, reflecting or embedding the features, and the weights with them,
    changes no evaluation. *)
Theorem C95_rotation : forall I p (b : Basis R I) X phi Q m w cs, linear_kind p -> gives_on b (length w) X phi ->
  orthonormal Q m (length w) ->
  Forall (call_on X phi (fun x => Dense (rotate Q m (length w) (coeff (phi x))))) cs ->
  exists a a', s_run LibOptimiser cs (MkLFA b w (construct (length w) p)) = Ret a /\
    s_run LibOptimiser cs (MkLFA (rotated Q m (length w) b) (rotate Q m (length w) (at_ w)) (construct m p)) = Ret a' /\
    forall x, X x -> exists v, s_evaluate a x = Ret (Ok v) /\ s_evaluate a' x = Ret (Ok v).
Proof. exact @rotation_same. Qed.
Print Assumptions C95_rotation.

(** The weights are the initial ones plus a combination of features trained on,
    so an evaluation is the initial one plus a combination of inner products. *)
Theorem C95_combination : forall I p (b : Basis R I) X phi w cs, linear_kind p -> gives_on b (length w) X phi ->
  Forall (call_on X phi phi) cs ->
  exists a ks, s_run LibOptimiser cs (MkLFA b w (construct (length w) p)) = Ret a /\ length (lfa_weights a) = length w /\
    Forall (fun cp => exists x, In x (concat (map updated cs)) /\ snd cp = phi x) ks /\
    (forall i, at_ (lfa_weights a) i = at_ w i + rsum (map (fun cp => fst cp * coeff (snd cp) i) ks)) /\
    forall x, X x -> s_evaluate a x =
      Ret (Ok (predict (phi x) w + rsum (map (fun cp => fst cp * inner (phi x) (snd cp)) ks))).
Proof. exact @combinations. Qed.
Print Assumptions C95_combination.

(** Features orthogonal to all of those keep their evaluation. *)
Theorem C95_orthogonal : forall I p (b : Basis R I) X phi w cs x, linear_kind p -> gives_on b (length w) X phi ->
  Forall (call_on X phi phi) cs -> X x ->
  (forall y, In y (concat (map updated cs)) -> inner (phi x) (phi y) = 0) ->
  exists a, s_run LibOptimiser cs (MkLFA b w (construct (length w) p)) = Ret a /\
    s_evaluate a x = s_evaluate (MkLFA b w (construct (length w) p)) x.
Proof.
  intros I p b X phi w cs x Lk G Cs Xx O.
  destruct (combinations p b X phi w cs Lk G Cs) as (a & ks & E & _ & S & _ & V). exists a. split; [exact E|].
  rewrite (V x Xx), (evaluate_predict X b (length w) phi w _ x G eq_refl Xx). do 2 f_equal.
  assert (Z : rsum (map (fun cp => fst cp * inner (phi x) (snd cp)) ks) = 0).
  { clear - S O. induction S as [|[c q] ks (y & Iy & Ey) _ IH]; [reflexivity|]. cbn [map fst snd] in *. rewrite sum_cons, IH, Ey, O by exact Iy. ring. }
  rewrite Z. ring.
Qed.
Print Assumptions C95_orthogonal.

(** All of this fails for Adagrad, Adam and AdaMax, whatever their parameters:
    one update on one of two orthogonal vectors, before and after a rotation. The
    evaluations differ, and that of the other vector moves. *)
Theorem C95_adaptive_refuted : forall p, ~ linear_kind p -> 0 < rate_of p -> betas_ok p ->
  (forall x y, inner (Dense (straight x)) (Dense (straight y)) = inner (Dense (turned x)) (Dense (turned y))) /\
  exists a a' v v' u', s_run LibOptimiser [SUpdate true 1] (MkLFA (table2 straight) (zeros 2) (construct 2 p)) = Ret a /\
    s_run LibOptimiser [SUpdate true 1] (MkLFA (table2 turned) (zeros 2) (construct 2 p)) = Ret a' /\
    s_evaluate a true = Ret (Ok v) /\ s_evaluate a' true = Ret (Ok v') /\ v < v' /\
    s_evaluate a false = Ret (Ok 0) /\ s_evaluate a' false = Ret (Ok u') /\ u' < 0.
Proof. intros p Nk Lr Bt. split; [exact turned_gram|exact (adaptive_turned p Nk Lr Bt)]. Qed.
Print Assumptions C95_adaptive_refuted.

(** The two bases are ones the other theorems speak of, the turn is orthonormal,
    and momentum does learn the same from both. *)
Definition turn (k i : nat) : R := match k, i with O, O => 3/5 | O, _ => -4/5 | _, O => 4/5 | _, _ => 3/5 end.

Example C95_case : linear_kind (HMomentum (1/2) (1/10)) /\ orthonormal turn 2 2 /\
  gives_on (table2 straight) (length (zeros (F := R) 2)) (fun _ => True) (fun x => Dense (straight x)) /\
  Forall (call_on (fun _ => True) (fun x => Dense (straight x)) (fun x => Dense (turned x)))
    [SUpdate true 1; SUpdateWith false (fun _ v => 2 - v); SEvaluate true] /\
  exists a a', s_run LibOptimiser [SUpdate true 1; SUpdate true 1] (MkLFA (table2 straight) (zeros 2) (construct 2 (HMomentum (1/2) (1/10)))) = Ret a /\
    s_run LibOptimiser [SUpdate true 1; SUpdate true 1] (MkLFA (table2 turned) (zeros 2) (construct 2 (HMomentum (1/2) (1/10)))) = Ret a' /\
    s_evaluate a true = Ret (Ok (25/4)) /\ s_evaluate a' true = Ret (Ok (25/4)).
Proof.
  splits.
  - exact I.
  - intros [|[|i]] [|[|j]] Li Lj; try lia; unfold sigma; cbn; lra.
  - apply turned_gives. intros []; reflexivity.
  - repeat constructor; auto.
  - eexists. eexists. split; [unfold s_run; cbn; reflexivity|]. split; [unfold s_run; cbn; reflexivity|].
    split; cbn; do 2 f_equal; rewrite fzero_R; field.
Qed.
