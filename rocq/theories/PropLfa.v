(** Theorems for linear function approximators: C42-C51. *)
From Coq Require Import String List Arith Lia Reals Lra ZArith.
From Flocq Require Import IEEE754.BinarySingleNaN.
From Verif Require Import Base Scalar ScalarR ScalarF64 HMap NdArray VecFacts Features Spec FeatureFacts NormF64
  SumOrder FeatureF64 Optim OptimSpec OptimFacts OptimReal Lfa LfaSpec LfaFacts LfaReal.
Import ListNotations.
Local Open Scope R_scope.

(** A basis of three features: even inputs give a sparse vector, odd ones a
    dense vector, inputs from 10 on are refused. *)
Definition ex_err : error := MkError KBasis "no".
Definition ex_basis : Basis R nat := MkBasis 3 (fun x =>
  if (10 <=? x)%nat then Ret (Err ex_err)
  else if Nat.even x then Ret (Ok (Sparse (MkSparse 3 [(2%nat, 1); (0%nat, 2)])))
  else Ret (Ok (Dense [1; 0; 3]))).

Lemma ex_even : sized 3 (Sparse (MkSparse 3 [(2%nat, 1); (0%nat, 2)])).
Proof.
  split; [split|]; auto.
  - repeat constructor; simpl; intuition lia.
  - apply bounded_sparse. simpl. intros i [<-|[<-|[]]]; lia.
Qed.
Lemma ex_odd : sized 3 (Dense [1; 0; 3]).
Proof. split; [apply wf_dense|reflexivity]. Qed.

(** ** C42 *)

Theorem C42_scalar : forall I S (b : Basis R I) (s : S) x phi,
  b_project b x = Ret (Ok phi) -> sized (b_dim b) phi ->
  s_evaluate (scalar b s) x = Ret (Ok 0) /\ length (lfa_weights (scalar b s)) = b_dim b.
Proof. intros. split; [eapply scalar_new_zero; eauto|apply repeat_length]. Qed.
Print Assumptions C42_scalar.

Theorem C42_vector : forall I S (b : Basis R I) (s : S) n x phi,
  b_project b x = Ret (Ok phi) -> sized (b_dim b) phi ->
  v_evaluate (vector b s n) x = Ret (Ok (repeat 0 n)) /\
  matrix_ok (lfa_weights (vector b s n)) /\ nrows (lfa_weights (vector b s n)) = b_dim b /\
  n_outputs (vector b s n) = n.
Proof.
  intros. split; [eapply vector_new_zero; eauto|]. split; [apply mzeros_ok|].
  split; [apply repeat_length|reflexivity].
Qed.
Print Assumptions C42_vector.

(** f64: exactly 0.0 or -0.0, in whatever order ndarray adds. *)
Theorem C42_f64 : forall P I S (b : Basis f64 I) (s : S) n x phi, any_order P ->
  b_project b x = Ret (Ok phi) -> sized (b_dim b) phi -> finite_features phi ->
  exists z, Beqb z b_zero = true /\
    @s_evaluate f64 I S (ScalarF64 P) (@scalar f64 I S (ScalarF64 P) b s) x = Ret (Ok z) /\
    @v_evaluate f64 I S (ScalarF64 P) (@vector f64 I S (ScalarF64 P) b s n) x = Ret (Ok (repeat z n)).
Proof.
  intros P I S b s n x phi AO Pr Z Fp. destruct (dot_f64_zeros P phi _ AO Z Fp) as (z & E & _ & _ & Q).
  exists z. split; [exact Q|]. split.
  - unfold s_evaluate, scalar. simpl. rewrite Pr. simpl. rewrite E. reflexivity.
  - apply (@vector_eval_const f64 I S (ScalarF64 P) b s n x phi z Pr E).
Qed.
Print Assumptions C42_f64.

(** An infinite activation makes a new approximator predict NaN. *)
Theorem C42_f64_infinite_refuted : exists (phi : Features f64), sized 1 phi /\
  @dot f64 (ScalarF64 UnrolledPlatform) phi (@zeros f64 (ScalarF64 UnrolledPlatform) 1) = Ret b_nan.
Proof. exists (Dense [b_inf]). split; [split; [apply wf_dense|reflexivity]|reflexivity]. Qed.
Print Assumptions C42_f64_infinite_refuted.

Example C42_case : any_order UnrolledPlatform /\ b_project ex_basis 4%nat = Ret (Ok (Sparse (MkSparse 3 [(2%nat, 1); (0%nat, 2)]))) /\
  s_evaluate (scalar ex_basis (1 : R)) 4%nat = Ret (Ok 0).
Proof.
  split; [apply unrolled_any_order|]. split; [reflexivity|].
  apply (C42_scalar _ _ ex_basis 1 4%nat _ eq_refl ex_even).
Qed.

(** ** C43 *)

Theorem C43_scalar : forall F I S `{Scalar F} (o : Optimiser F S) (a : ScalarLFA F I S) x er,
  b_project (lfa_basis a) x = Ret (Err er) ->
  s_evaluate a x = Ret (Err er) /\
  (forall e, s_update o a x e = Ret (a, Err er)) /\
  (forall f, s_update_with o a x f = Ret (a, Err er)).
Proof.
  intros F I S H o a x er P. unfold s_evaluate, s_update, s_update_with. rewrite P. simpl. auto.
Qed.
Print Assumptions C43_scalar.

Theorem C43_vector : forall F I S `{Scalar F} (o : Optimiser F S) (a : VectorLFA F I S) x er,
  b_project (lfa_basis a) x = Ret (Err er) ->
  v_evaluate a x = Ret (Err er) /\ v_try_iter a x = Ret (Err er) /\
  (forall j, v_evaluate_index a x j = Ret (Err er)) /\
  (forall es, v_update o a x es = Ret (a, Err er)) /\
  (forall j e, v_update_index o a x j e = Ret (a, Err er)) /\
  (forall f, v_update_with o a x f = Ret (a, Err er)).
Proof.
  intros F I S H o a x er P.
  unfold v_evaluate, v_try_iter, v_evaluate_index, v_update, v_update_index, v_update_with.
  rewrite P. simpl. splits; auto.
Qed.
Print Assumptions C43_vector.

Example C43_case : b_project (lfa_basis (scalar ex_basis (1 : R))) 12%nat = Ret (Err ex_err).
Proof. reflexivity. Qed.

(** ** C44 *)

Theorem C44_scalar : forall F I S `{Scalar F} (o : Optimiser F S) (a : ScalarLFA F I S) x f phi v,
  b_project (lfa_basis a) x = Ret (Ok phi) -> s_evaluate a x = Ret (Ok v) ->
  s_update_with o a x f = s_update o a x (f phi v).
Proof.
  intros F I S H o a x f phi v P. unfold s_evaluate, s_update_with, s_update. rewrite P. simpl.
  destruct (dot phi (lfa_weights a)); simpl; [|discriminate]. injection 1 as ->. reflexivity.
Qed.
Print Assumptions C44_scalar.

(** The errors used are the closure's storage... *)
Theorem C44_vector_storage : forall F I S `{Scalar F} (o : Optimiser F S) (a : VectorLFA F I S) x f phi vs,
  matrix_ok (lfa_weights a) ->
  b_project (lfa_basis a) x = Ret (Ok phi) -> v_evaluate a x = Ret (Ok vs) ->
  v_update_with o a x f = v_update o a x (ow_raw (f phi vs)).
Proof.
  intros F I S H o a x f phi vs OK P. rewrite (v_evaluate_matmul a x phi OK P).
  unfold v_update_with, v_update. rewrite P. simpl.
  destruct (matmul phi (lfa_weights a)); simpl; [|discriminate]. injection 1 as ->. reflexivity.
Qed.
Print Assumptions C44_vector_storage.

(** ...which are its elements when it is in standard layout. *)
Theorem C44_vector : forall F I S `{Scalar F} (o : Optimiser F S) (a : VectorLFA F I S) x f phi vs es,
  matrix_ok (lfa_weights a) ->
  b_project (lfa_basis a) x = Ret (Ok phi) -> v_evaluate a x = Ret (Ok vs) ->
  ow_standard (f phi vs) -> ow_lists (f phi vs) es ->
  v_update_with o a x f = v_update o a x es.
Proof.
  intros F I S H o a x f phi vs es OK P E [S0 [S1 S2]] [L N].
  rewrite (C44_vector_storage F I S o a x f phi vs OK P E). f_equal.
  apply nth_error_ext. intros k. destruct (Nat.lt_ge_cases k (ow_len (f phi vs))) as [Lk|Lk].
  - rewrite <- N by auto. unfold ow_elem. rewrite S0, S1.
    destruct (Z.ltb_spec (Z.of_nat 0 + Z.of_nat k * 1) 0); [lia|]. f_equal. lia.
  - rewrite !(proj2 (nth_error_None _ _)) by lia. reflexivity.
Qed.
Print Assumptions C44_vector.

(** A closure that returns its errors reversed in place ([invert_axis]) or
    sliced by value: the weights move by other errors than the ones returned. *)
Theorem C44_layout_refuted : exists (a : VectorLFA R nat R) x f phi vs es v1 v2,
  matrix_ok (lfa_weights a) /\
  b_project (lfa_basis a) x = Ret (Ok phi) /\ v_evaluate a x = Ret (Ok vs) /\
  ow_lists (f phi vs) es /\
  v_update_with SGD a x f = Ret (v1, Ok tt) /\ v_update SGD a x es = Ret (v2, Ok tt) /\
  lfa_weights v1 <> lfa_weights v2.
Proof.
  exists (vector ex_basis 1 2), 1%nat, (fun _ _ => MkOwned [5; 7] 1 (-1) 2), (Dense [1; 0; 3]).
  eexists _, [7; 5], _, _. splits; try reflexivity.
  - apply mzeros_ok.
  - split; [reflexivity|]. intros [|[|k]] Lk; simpl in Lk; try lia; reflexivity.
  - simpl. intros E. injection E as E1 _. revert E1. to_R. lra.
Qed.
Print Assumptions C44_layout_refuted.

Example C44_case : ow_standard (ow_vec [5; 7]) /\ ow_lists (ow_vec [5; 7]) [5; 7].
Proof.
  split; [repeat split|]. split; [reflexivity|]. intros [|[|k]] Lk; simpl in Lk; try lia; reflexivity.
Qed.

(** ** C45 *)

Theorem C45_scalar : forall F I S `{Scalar F} (o : Optimiser F S) cs (a a' : ScalarLFA F I S),
  keeps_length o -> s_run o cs a = Ret a' ->
  lfa_basis a' = lfa_basis a /\ length (lfa_weights a') = length (lfa_weights a).
Proof. intros F I S H o cs a a' KL. apply s_run_shape, KL. Qed.
Print Assumptions C45_scalar.

Theorem C45_vector : forall F I S `{Scalar F} (o : Optimiser F S) cs (a a' : VectorLFA F I S),
  keeps_length o -> matrix_ok (lfa_weights a) -> v_run o cs a = Ret a' ->
  lfa_basis a' = lfa_basis a /\ matrix_ok (lfa_weights a') /\
  nrows (lfa_weights a') = nrows (lfa_weights a) /\ n_outputs a' = n_outputs a.
Proof.
  intros F I S H o cs a a' KL OK E. destruct (v_run_shape o KL cs a a' OK E) as [B (A & C & D)].
  splits; auto.
Qed.
Print Assumptions C45_vector.

(** Every optimiser of the library keeps the length of the view it is given,
    whatever the sizes of its buffers and of the features. *)
Theorem C45_library : forall F `{Scalar F}, keeps_length (LibOptimiser (F := F)).
Proof. exact @lib_keeps_length. Qed.
Print Assumptions C45_library.

Example C45_case : exists a', s_run SGD [SUpdate 4%nat 1; SUpdate 12%nat 1; SEvaluate 1%nat;
    SUpdateWith 1%nat (fun _ v => 2 - v)] (scalar ex_basis 1) = Ret a' /\ keeps_length (SGD (F := R)).
Proof. eexists. split; [reflexivity|apply sgd_keeps_length]. Qed.

(** ** C46 *)

(** Any optimiser without state of its own... *)
Theorem C46_independent : forall F I S `{Scalar F} (o : Optimiser F S) h (v v' : VectorLFA F I S) j c,
  keeps_length o -> memoryless o -> matrix_ok (lfa_weights v) ->
  column (lfa_weights v) j = Ret c -> v_train o h v = Ret v' ->
  exists a', s_train o (errors_of j h) (MkLFA (lfa_basis v) c (lfa_optimiser v)) = Ret a' /\
    column (lfa_weights v') j = Ret (lfa_weights a').
Proof.
  intros F I S H o h v v' j c KL ML OK C E.
  destruct (v_train_column o KL ML h v v' j c OK C E) as (c' & Cj & St & _).
  eexists. split; [exact St|exact Cj].
Qed.
Print Assumptions C46_independent.

(** ...such as SGD and ISGD. *)
Theorem C46_sgd_isgd : forall F `{Scalar F},
  keeps_length (SGD (F := F)) /\ memoryless (SGD (F := F)) /\
  keeps_length (ISGD (F := F)) /\ memoryless (ISGD (F := F)).
Proof.
  intros. splits; auto using sgd_keeps_length, sgd_memoryless, isgd_keeps_length, isgd_memoryless.
Qed.
Print Assumptions C46_sgd_isgd.

(** Every stateful optimiser, for all but degenerate hyperparameters, on the
    very first update. *)
Theorem C46_stateful_refuted : forall p, leaky p -> exists es j e v' a' c,
  nth_error es j = Some e /\ length es = 2%nat /\
  v_update LibOptimiser (vector unit_basis (construct 1 p) 2) tt es = Ret (v', Ok tt) /\
  s_update LibOptimiser (scalar unit_basis (construct 1 p)) tt e = Ret (a', Ok tt) /\
  column (lfa_weights v') j = Ret c /\ c <> lfa_weights a'.
Proof. exact stateful_leak. Qed.
Print Assumptions C46_stateful_refuted.

Theorem C46_momentum_leak : forall I (b : Basis R I) x phi m lr e,
  b_project b x = Ret (Ok phi) -> sized (b_dim b) phi ->
  exists v' c, v_update SGDMomentum (vector b (momentum_new (b_dim b) m lr) 2) x [e; 0] = Ret (v', Ok tt) /\
    column (lfa_weights v') 1 = Ret c /\ forall i, at_ c i = lr * m * (coeff phi i * e).
Proof. exact @momentum_leak. Qed.
Print Assumptions C46_momentum_leak.

Example C46_case : leaky (HAdam (1/1000) (9/10) (999/1000)) /\
  exists v', v_train SGD [(4%nat, [1; 2]); (11%nat, [1; 1]); (1%nat, [3])] (vector ex_basis 1 2) = Ret v' /\
  errors_of 1 [(4%nat, [1; 2]); (11%nat, [1; 1]); (1%nat, [3])] = [(4%nat, 2); (11%nat, 1)].
Proof. split; [simpl; lra|]. eexists. split; reflexivity. Qed.

(** ** C47 *)

Theorem C47_evaluate_index : forall F I S `{Scalar F} (a : VectorLFA F I S) x phi vs,
  matrix_ok (lfa_weights a) -> b_project (lfa_basis a) x = Ret (Ok phi) ->
  v_evaluate a x = Ret (Ok vs) ->
  length vs = n_outputs a /\
  forall j v, nth_error vs j = Some v -> v_evaluate_index a x j = Ret (Ok v).
Proof.
  intros F I S H a x phi vs OK P. rewrite (v_evaluate_matmul a x phi OK P).
  unfold matmul. destruct (columns_Ret _ OK) as (cs & C & L & N). rewrite C. simpl.
  destruct (omapM (dot phi) cs) as [vs'|] eqn:M; simpl; [|discriminate]. injection 1 as ->.
  split; [rewrite (omapM_length _ _ _ M); exact L|].
  intros j v Nv. pose proof (omapM_nth _ _ _ j M) as Q. rewrite Nv in Q.
  destruct (nth_error cs j) as [c|] eqn:Nc; [|destruct Q].
  unfold v_evaluate_index. rewrite P. simpl.
  rewrite (proj1 (columns_nth _ _ _ _ OK C) Nc). simpl. rewrite Q. reflexivity.
Qed.
Print Assumptions C47_evaluate_index.

Theorem C47_index_panics : forall F I S `{Scalar F} (a : VectorLFA F I S) x phi j,
  b_project (lfa_basis a) x = Ret (Ok phi) -> (n_outputs a <= j)%nat ->
  v_evaluate_index a x j = Panic.
Proof.
  intros F I S H a x phi j P L. unfold v_evaluate_index. rewrite P. simpl.
  rewrite column_ge by exact L. reflexivity.
Qed.
Print Assumptions C47_index_panics.

(** After [k] calls of [next] the iterator announces [n_outputs - k] further
    items, and the next one is item [k] of [evaluate]; [iter] and [try_iter] are
    the same iterator. *)
Theorem C47_iterator : forall F I S `{Scalar F} (a : VectorLFA F I S) x phi vs k,
  matrix_ok (lfa_weights a) -> b_project (lfa_basis a) x = Ret (Ok phi) ->
  v_evaluate a x = Ret (Ok vs) ->
  exists it it' nx, v_iter a x = Ret it /\ v_try_iter a x = Ret (Ok it) /\
    advance k it = Ret it' /\ it_len it' = (n_outputs a - k)%nat /\
    it_size_hint it' = (it_len it', Some (it_len it')) /\
    it_next it' = Ret (nth_error vs k, nx).
Proof.
  intros F I S H a x phi vs k OK P E.
  pose proof E as E0. rewrite (v_evaluate_matmul a x phi OK P) in E0. unfold matmul in E0.
  destruct (columns_Ret _ OK) as (cs & C & L & N). rewrite C in E0. simpl in E0.
  destruct (omapM (dot phi) cs) as [vs'|] eqn:M; simpl in E0; [|discriminate]. injection E0 as ->.
  exists (MkIter phi cs), (MkIter phi (skipn k cs)), (MkIter phi (skipn (Datatypes.S k) cs)).
  splits.
  - unfold v_iter. rewrite P. simpl. rewrite C. reflexivity.
  - unfold v_try_iter. rewrite P. simpl. rewrite C. reflexivity.
  - eapply advance_spec; eauto.
  - unfold it_len, n_outputs. cbn [it_lanes]. rewrite skipn_length, L. reflexivity.
  - reflexivity.
  - unfold it_next. cbn [it_lanes it_basis]. pose proof (omapM_nth _ _ _ k M) as Q.
    destruct (nth_error cs k) as [c|] eqn:Nc.
    + assert (Sk : skipn k cs = c :: skipn (Datatypes.S k) cs).
      { clear - Nc. revert k Nc. induction cs as [|c0 cs IH]; intros [|k] Nc; try discriminate; simpl in *.
        - congruence.
        - rewrite (IH k Nc). reflexivity. }
      rewrite Sk. destruct (nth_error vs k) as [v|]; [|destruct Q]. rewrite Q. reflexivity.
    + apply nth_error_None in Nc. destruct (nth_error vs k) as [v|]; [destruct Q|].
      rewrite skipn_all2 by auto. rewrite skipn_all2 by lia. reflexivity.
Qed.
Print Assumptions C47_iterator.

(** [iter] panics exactly when the projection fails (or panics itself). *)
Theorem C47_iter_panics : forall F I S (a : VectorLFA F I S) x, matrix_ok (lfa_weights a) ->
  (v_iter a x = Panic <-> (forall phi, b_project (lfa_basis a) x <> Ret (Ok phi))) /\
  (v_try_iter a x = Panic <-> b_project (lfa_basis a) x = Panic).
Proof.
  intros F I S a x OK. unfold v_iter, v_try_iter. destruct (columns_Ret _ OK) as (cs & C & _).
  destruct (b_project (lfa_basis a) x) as [[phi|er]|]; simpl; rewrite ?C; simpl.
  - split; split; try discriminate. intros X. exfalso. apply (X phi). reflexivity.
  - split; split; try discriminate; auto.
  - split; split; try discriminate; auto.
Qed.
Print Assumptions C47_iter_panics.

(** Evaluation succeeds on well-sized projections. *)
Theorem C47_evaluates : forall I S (a : VectorLFA R I S) x phi, matrix_ok (lfa_weights a) ->
  b_project (lfa_basis a) x = Ret (Ok phi) -> sized (nrows (lfa_weights a)) phi ->
  exists vs, v_evaluate a x = Ret (Ok vs).
Proof.
  intros I S a x phi OK P Z. rewrite (v_evaluate_matmul a x phi OK P). unfold matmul.
  destruct (columns_Ret _ OK) as (cs & C & L & N). rewrite C. simpl.
  destruct (omapM_dot_ok phi (nrows (lfa_weights a)) cs) as [vs M]; auto.
  - intros c Ic. apply In_nth_error in Ic. destruct Ic as [j Nj].
    apply (columns_nth _ _ _ _ OK C) in Nj. apply (column_Ret _ _ _ OK) in Nj. tauto.
  - intros w Lw. exists (predict phi w). apply dot_predict. rewrite Lw. auto.
  - rewrite M. simpl. eauto.
Qed.
Print Assumptions C47_evaluates.

Definition ex_vector : VectorLFA R nat R := MkLFA ex_basis (MkMatrix [[1; 2]; [3; 4]; [5; 6]] 2) 1.

Example C47_case : matrix_ok (lfa_weights ex_vector) /\
  v_evaluate ex_vector 4%nat = Ret (Ok [7; 10]) /\ v_evaluate_index ex_vector 4%nat 1 = Ret (Ok 10).
Proof.
  split; [repeat constructor|]. unfold ex_vector, v_evaluate, v_evaluate_index.
  cbn -[fzero]. to_R. split; repeat f_equal; lra.
Qed.

(** ** C48 *)

(** Panics included: the scalar approximator is built on column [j] and the
    current optimiser. *)
Theorem C48_update_index : forall F I S `{Scalar F} (o : Optimiser F S) (v : VectorLFA F I S) x j e c,
  keeps_length o -> matrix_ok (lfa_weights v) -> column (lfa_weights v) j = Ret c ->
  match s_update o (MkLFA (lfa_basis v) c (lfa_optimiser v)) x e with
  | Panic => v_update_index o v x j e = Panic
  | Ret (a', r) => exists v', v_update_index o v x j e = Ret (v', r) /\
      lfa_basis v' = lfa_basis v /\ lfa_optimiser v' = lfa_optimiser a' /\
      matrix_ok (lfa_weights v') /\ nrows (lfa_weights v') = nrows (lfa_weights v) /\
      ncols (lfa_weights v') = ncols (lfa_weights v) /\
      column (lfa_weights v') j = Ret (lfa_weights a') /\
      forall k, k <> j -> column (lfa_weights v') k = column (lfa_weights v) k
  end.
Proof. intros F I S H o v x j e c KL. apply v_update_index_spec, KL. Qed.
Print Assumptions C48_update_index.

Theorem C48_update_columns : forall F I S `{Scalar F} (o : Optimiser F S) (v v' : VectorLFA F I S) x es r j,
  keeps_length o -> matrix_ok (lfa_weights v) -> v_update o v x es = Ret (v', r) ->
  (length es <= j)%nat -> column (lfa_weights v') j = column (lfa_weights v) j.
Proof.
  intros F I S H o v v' x es r j KL OK E L.
  destruct (b_project (lfa_basis v) x) as [[phi|er]|] eqn:P.
  2:{ unfold v_update in E. rewrite P in E. simpl in E. injection E as <- <-. reflexivity. }
  2:{ unfold v_update in E. rewrite P in E. discriminate. }
  destruct (columns_Ret _ OK) as (cs & C & Lc & _).
  pose proof (v_update_spec o KL v x es phi cs OK C P) as U.
  destruct (step_each o phi es cs (lfa_optimiser v)) as [[[s' cs'] rs]|] eqn:Se; [|congruence].
  destruct U as (wm & E' & OK' & Rw & Cw & Cs). rewrite E' in E. injection E as <- <-. simpl.
  destruct (step_each_trace o phi es cs _ _ _ _ Se) as (L1 & L2 & N & _).
  specialize (N j). rewrite L2 in N. specialize (N ltac:(lia)).
  destruct (Nat.lt_ge_cases j (ncols (lfa_weights v))) as [Lj|Lj].
  - destruct (column_lt _ j OK Lj) as (c & Ec & _). rewrite Ec.
    apply (columns_nth _ _ _ _ OK' Cs). rewrite N. apply (columns_nth _ _ _ _ OK C). exact Ec.
  - rewrite !column_ge; auto. rewrite Cw. auto.
Qed.
Print Assumptions C48_update_columns.

Theorem C48_surplus_ignored : forall F I S `{Scalar F} (o : Optimiser F S) (v : VectorLFA F I S) x es,
  keeps_length o -> matrix_ok (lfa_weights v) ->
  v_update o v x es = v_update o v x (firstn (n_outputs v) es).
Proof.
  intros F I S H o v x es KL OK.
  destruct (b_project (lfa_basis v) x) as [[phi|er]|] eqn:P;
    [|unfold v_update; rewrite P; reflexivity|unfold v_update; rewrite P; reflexivity].
  destruct (columns_Ret _ OK) as (cs & C & Lc & _).
  pose proof (v_update_spec o KL v x es phi cs OK C P) as U.
  pose proof (v_update_spec o KL v x (firstn (n_outputs v) es) phi cs OK C P) as U'.
  unfold n_outputs in *. rewrite <- Lc in *. rewrite <- step_each_surplus in U'.
  destruct (step_each o phi es cs (lfa_optimiser v)) as [[[s' cs'] rs]|]; [|congruence].
  destruct U as (wm & E & OK1 & R1 & C1 & Cs1), U' as (wm' & E' & OK2 & R2 & C2 & Cs2).
  rewrite E, E'. do 3 f_equal. apply matrix_ext; auto; try congruence.
  intros j Lj. destruct (column_lt wm j OK1 Lj) as (c & Ec & _). rewrite Ec. symmetry.
  apply (columns_nth _ _ _ _ OK2 Cs2). apply (columns_nth _ _ _ _ OK1 Cs1). exact Ec.
Qed.
Print Assumptions C48_surplus_ignored.

Example C48_case : matrix_ok (lfa_weights ex_vector) /\ column (lfa_weights ex_vector) 1 = Ret [2; 4; 6] /\
  exists v', v_update SGD ex_vector 4%nat [1; 1; 1; 1] = Ret (v', Ok tt).
Proof. split; [repeat constructor|]. split; [reflexivity|]. eexists. reflexivity. Qed.

(** ** C49 *)

(** [m] columns are stepped, left to right, each from the state left by the
    previous one even if that one failed. *)
Theorem C49_every_column_stepped : forall F I S `{Scalar F} (o : Optimiser F S) (v v' : VectorLFA F I S) x phi es r,
  keeps_length o -> matrix_ok (lfa_weights v) -> b_project (lfa_basis v) x = Ret (Ok phi) ->
  v_update o v x es = Ret (v', r) ->
  let m := Nat.min (length es) (n_outputs v) in
  exists (ss : list S) (rs : list (result unit)),
    length ss = Datatypes.S m /\ length rs = m /\
    nth_error ss 0 = Some (lfa_optimiser v) /\ nth_error ss m = Some (lfa_optimiser v') /\
    (forall k, (k < m)%nat -> exists c e c' rk s1 s2,
       column (lfa_weights v) k = Ret c /\ nth_error es k = Some e /\
       nth_error ss k = Some s1 /\ nth_error ss (Datatypes.S k) = Some s2 /\
       o_step_scaled o s1 c phi e = Ret (s2, c', rk) /\
       column (lfa_weights v') k = Ret c' /\ nth_error rs k = Some rk) /\
    (r = Ok tt <-> Forall (fun rk => rk = Ok tt) rs) /\
    (forall er, r = Err er <->
       exists k, nth_error rs k = Some (Err er) /\ forall i, (i < k)%nat -> nth_error rs i = Some (Ok tt)).
Proof.
  intros F I S H o v v' x phi es r KL OK P E m.
  destruct (columns_Ret _ OK) as (cs & C & Lc & _).
  pose proof (v_update_spec o KL v x es phi cs OK C P) as U.
  destruct (step_each o phi es cs (lfa_optimiser v)) as [[[s' cs'] rs]|] eqn:Se; [|congruence].
  destruct U as (wm & E' & OK' & Rw & Cw & Cs). rewrite E' in E. injection E as <- <-. simpl.
  destruct (step_each_trace o phi es cs _ _ _ _ Se) as (L1 & L2 & N & ss & Ls & S0 & S1 & T).
  assert (Em : length rs = m) by (unfold m, n_outputs; rewrite L2, Lc; reflexivity).
  rewrite Em in *. exists ss, rs. splits; auto.
  - intros k Lk. destruct (T k Lk) as (c & e & c' & rk & s1 & s2 & A1 & A2 & A3 & A4 & A5 & A6 & A7).
    exists c, e, c', rk, s1, s2. splits; auto.
    + apply (columns_nth _ _ _ _ OK C). auto.
    + apply (columns_nth _ _ _ _ OK' Cs). auto.
  - apply first_error_Ok.
  - intros er. apply first_error_Err.
Qed.
Print Assumptions C49_every_column_stepped.

(** The same fold runs in update_with. *)
Theorem C49_update_with : forall F I S `{Scalar F} (o : Optimiser F S) (v : VectorLFA F I S) x f phi vs,
  b_project (lfa_basis v) x = Ret (Ok phi) -> matmul phi (lfa_weights v) = Ret vs ->
  v_update_with o v x f = v_update o v x (ow_raw (f phi vs)).
Proof.
  intros F I S H o v x f phi vs P M. unfold v_update_with, v_update. rewrite P. simpl. rewrite M. reflexivity.
Qed.
Print Assumptions C49_update_with.

(** An optimiser that adds the error to every weight, counts its calls and
    refuses negative errors. *)
Definition ex_picky : Optimiser R nat := MkOptimiser
  (fun s w _ e => Ret (S s, map (Rplus e) w, if Rltb e 0 then Err ex_err else Ok tt))
  (fun s w _ => Ret (s, w, Ok tt)) (fun s => s).

Example C49_case : keeps_length ex_picky /\
  exists v', v_update ex_picky (MkLFA ex_basis (MkMatrix [[1; 2]; [3; 4]; [5; 6]] 2) 0%nat) 1%nat [-1; 1]
    = Ret (v', Err ex_err) /\ lfa_optimiser v' = 2%nat /\
    column (lfa_weights v') 1 = Ret [1 + 2; 1 + 4; 1 + 6].
Proof.
  split. { intros s w phi e s' w' r E. injection E as <- <- <-. apply map_length. }
  eexists. split.
  - cbn. unfold Rltb. destruct (Rlt_dec (-1) 0) as [|N]; [|lra].
    destruct (Rlt_dec 1 0) as [|N]; [lra|]. reflexivity.
  - split; reflexivity.
Qed.

(** ** C50 *)

Theorem C50_sgd : forall I (b : Basis R I) x y phi lr k w,
  b_project b x = Ret (Ok phi) -> sized (length w) phi ->
  exists w', s_run SGD (repeat (fit_call (x, y)) k) (MkLFA b w lr) = Ret (MkLFA b w' lr) /\
    s_evaluate (MkLFA b w lr) x = Ret (Ok (predict phi w)) /\
    s_evaluate (MkLFA b w' lr) x = Ret (Ok (predict phi w')) /\
    y - predict phi w' = (1 - lr * norm2 phi) ^ k * (y - predict phi w).
Proof.
  intros I b x y phi lr k w P Z.
  destruct (fit_repeat SGD lr _ (sgd_rule lr) b x y phi P k w Z) as (w' & E & L & Res).
  exists w'. splits; auto; unfold s_evaluate; simpl; rewrite P; simpl; rewrite dot_predict; auto.
  rewrite L. auto.
Qed.
Print Assumptions C50_sgd.

Theorem C50_isgd : forall I (b : Basis R I) x y phi lr k w,
  b_project b x = Ret (Ok phi) -> sized (length w) phi -> 1 + lr * norm2 phi <> 0 ->
  exists w', s_run ISGD (repeat (fit_call (x, y)) k) (MkLFA b w lr) = Ret (MkLFA b w' lr) /\
    s_evaluate (MkLFA b w lr) x = Ret (Ok (predict phi w)) /\
    s_evaluate (MkLFA b w' lr) x = Ret (Ok (predict phi w')) /\
    y - predict phi w' = (y - predict phi w) / (1 + lr * norm2 phi) ^ k.
Proof.
  intros I b x y phi lr k w P Z N.
  destruct (fit_repeat ISGD lr _ (isgd_rule lr) b x y phi P k w Z) as (w' & E & L & Res).
  exists w'. splits; auto; try (unfold s_evaluate; simpl; rewrite P; simpl; rewrite dot_predict; auto).
  - rewrite L. auto.
  - rewrite Res, (isgd_factor lr phi N). unfold Rdiv. rewrite Rinv_pow by auto. ring.
Qed.
Print Assumptions C50_isgd.

Example C50_case : sized 3 (Dense [1; 0; 3]) /\ 1 + 1/10 * norm2 (Dense [1; 0; 3]) <> 0 /\
  1 - 1/10 * norm2 (Dense [1; 0; 3]) = 0.
Proof.
  split; [apply ex_odd|]. unfold norm2, sigma. simpl. unfold coeff. simpl. split; lra.
Qed.

(** ** C51 *)

Theorem C51_sgd : forall I (b : Basis R I) lr ws h w, 0 <= lr ->
  Forall (consistent b (length w) ws) h ->
  Forall (fun p => forall phi, b_project b (fst p) = Ret (Ok phi) -> lr * norm2 phi <= 2) h ->
  exists w', s_run SGD (map fit_call h) (MkLFA b w lr) = Ret (MkLFA b w' lr) /\ length w' = length w /\
    dist2 w' ws <= dist2 w ws.
Proof.
  intros I b lr ws h w P Cs Rs. apply (fit_contracts SGD lr _ (sgd_rule lr) b ws h w Cs).
  eapply Forall_impl; [|exact Rs]. simpl. auto.
Qed.
Print Assumptions C51_sgd.

Theorem C51_isgd : forall I (b : Basis R I) lr ws h w, 0 <= lr ->
  Forall (consistent b (length w) ws) h ->
  exists w', s_run ISGD (map fit_call h) (MkLFA b w lr) = Ret (MkLFA b w' lr) /\ length w' = length w /\
    dist2 w' ws <= dist2 w ws.
Proof.
  intros I b lr ws h w P Cs. apply (fit_contracts ISGD lr _ (isgd_rule lr) b ws h w Cs).
  apply Forall_forall. intros p _ phi _. apply isgd_rate, P.
Qed.
Print Assumptions C51_isgd.

(** Above the bound SGD does move away. *)
Theorem C51_bound_tight_refuted : exists lr ws w w' phi, 2 < lr * norm2 phi /\ sized 1 phi /\
  o_step_scaled SGD lr w phi (predict phi ws - predict phi w) = Ret (lr, w', Ok tt) /\
  dist2 w ws < dist2 w' ws.
Proof.
  exists 3, [1], [0]. eexists. exists (Dense [1]). splits.
  - unfold norm2, sigma. simpl. lra.
  - split; [apply wf_dense|reflexivity].
  - reflexivity.
  - unfold dist2, sigma, predict, sigma. simpl. unfold at_. simpl. to_R. lra.
Qed.
Print Assumptions C51_bound_tight_refuted.

Example C51_case : Forall (consistent ex_basis 3 [1; 1; 1]) [(4%nat, 3); (1%nat, 4); (6%nat, 3)] /\
  1/10 * norm2 (Dense [1; 0; 3]) <= 2.
Proof.
  split.
  - repeat constructor; unfold consistent; simpl; eexists; (split; [reflexivity|]); split;
      try apply ex_even; try apply ex_odd; unfold predict, sigma; simpl; unfold coeff, at_; simpl; lra.
  - unfold norm2, sigma. simpl. unfold coeff. simpl. lra.
Qed.
