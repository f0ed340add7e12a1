(** Fitting vector targets: one scalar fit per output. Facts for C83. *)
From Coq Require Import List Arith ZArith Lia Bool Reals Lra.
From Flocq Require Import Core.Core IEEE754.BinarySingleNaN.
From Verif Require Import Base Scalar ScalarR ScalarF64 F64Facts HMap NdArray VecFacts Features Spec FeatureFacts Optim OptimSpec Lfa LfaSpec LfaFacts
  LfaReal LfaRegret Passes Outputs.
Import ListNotations.

(** [update_with(x, |_, vs| ys - vs)] and the same for one output. *)
Definition v_fit {F I} `{Scalar F} (p : I * list F) : v_call F I :=
  VUpdateWith (fst p) (fun _ vs => ow_vec (map2 fsub (snd p) vs)).
Definition s_fit {F I} `{Scalar F} (p : I * F) : s_call F I := SUpdateWith (fst p) (fun _ v => fsub (snd p) v).
Definition target {F I} `{Scalar F} (j : nat) (p : I * list F) : I * F := (fst p, nth j (snd p) fzero).

Section Fit.
  Context {F I S : Type} `{Scalar F} (o : Optimiser F S) (KL : keeps_length o) (ML : memoryless o).

  Lemma fit_on n j (p : I * list F) : length (snd p) = n -> j < n -> on_output n j (v_fit p) [s_fit (target j p)].
  Proof.
    destruct p as [x ys]. cbn [snd]. intros L Lj. unfold v_fit, s_fit, target. cbn [fst snd]. apply on_update_with.
    intros phi vs v Lv Nv. cbn [ow_vec ow_raw]. rewrite nth_error_map2, Nv.
    destruct (nth_error_lt ys j) as [y Ny]; [lia|]. rewrite Ny. rewrite (nth_error_nth _ _ _ Ny). reflexivity.
  Qed.

  Lemma fits_on n j (h : list (I * list F)) : Forall (fun p => length (snd p) = n) h -> j < n ->
    Forall2 (on_output n j) (map v_fit h) (map (fun c => [c]) (map s_fit (map (target j) h))).
  Proof. intros Fh Lj. induction Fh; cbn [map]; constructor; auto. apply fit_on; auto. Qed.
  Lemma concat_singles {A} (l : list A) : concat (map (fun c => [c]) l) = l.
  Proof. induction l; simpl; congruence. Qed.

  Notation on v c := (MkLFA (lfa_basis v) c (lfa_optimiser v)).

  Lemma fit_column h (v v' : VectorLFA F I S) j c : matrix_ok (lfa_weights v) -> Forall (fun p => length (snd p) = n_outputs v) h ->
    v_run o (map v_fit h) v = Ret v' -> column (lfa_weights v) j = Ret c ->
    exists c', column (lfa_weights v') j = Ret c' /\ s_run o (map s_fit (map (target j) h)) (on v c) = Ret (on v c').
  Proof.
    intros OK L E C. assert (Lj : j < n_outputs v) by (apply (column_Ret _ _ _ OK C)).
    destruct (v_run_output o KL ML _ _ v v' j c OK C (fits_on (n_outputs v) j h L Lj) E) as (c' & C' & E').
    rewrite concat_singles in E'. eauto.
  Qed.

  Lemma fit_defined h (v : VectorLFA F I S) : matrix_ok (lfa_weights v) -> Forall (fun p => length (snd p) = n_outputs v) h ->
    Forall (fun p => b_project (lfa_basis v) (fst p) <> Panic) h ->
    (forall j c, column (lfa_weights v) j = Ret c -> exists a', s_run o (map s_fit (map (target j) h)) (on v c) = Ret a') ->
    exists v', v_run o (map v_fit h) v = Ret v' /\ lfa_basis v' = lfa_basis v /\ same_shape (lfa_weights v) (lfa_weights v').
  Proof.
    intros OK L NP D. destruct (v_run_defined o KL ML (map v_fit h) v OK) as [v' E].
    - apply Forall_forall. intros k Ik. apply in_map_iff in Ik. destruct Ik as (p & <- & Ip). split; [|exact Logic.I].
      rewrite Forall_forall in NP. exact (NP p Ip).
    - intros j c C. destruct (D j c C) as [a' E]. assert (Lj : j < n_outputs v) by (apply (column_Ret _ _ _ OK C)).
      eexists _, a'. split; [exact (fits_on (n_outputs v) j h L Lj)|]. rewrite concat_singles. exact E.
    - exists v'. split; auto. exact (v_run_shape o KL _ v v' OK E).
  Qed.

  (** Evaluating all outputs is evaluating each. *)
  Lemma evaluate_outputs (v : VectorLFA F I S) x : matrix_ok (lfa_weights v) ->
    (exists phi, b_project (lfa_basis v) x = Ret (Ok phi)) ->
    (forall j c, column (lfa_weights v) j = Ret c -> exists y, s_evaluate (on v c) x = Ret (Ok y)) ->
    exists vs, v_evaluate v x = Ret (Ok vs) /\ length vs = n_outputs v /\
      forall j c y, column (lfa_weights v) j = Ret c -> s_evaluate (on v c) x = Ret (Ok y) -> nth_error vs j = Some y.
  Proof.
    intros OK [phi P] D. rewrite (v_evaluate_matmul v x phi OK P).
    assert (Dt : forall c y, s_evaluate (on v c) x = Ret (Ok y) -> dot phi c = Ret y).
    { intros c y. unfold s_evaluate. cbn [lfa_basis lfa_weights]. rewrite P. cbn [obind rmap]. destruct (dot phi c); cbn [obind]; congruence. }
    destruct (matmul_defined phi (lfa_weights v) OK) as [vs M].
    { intros j c C. destruct (D j c C) as [y Ey]. exists y. auto. }
    rewrite M. cbn [obind]. exists vs. split; auto. split.
    - unfold matmul in M. destruct (columns_Ret _ OK) as (cs & Ec & L & _). rewrite Ec in M. cbn [obind] in M.
      rewrite (omapM_length _ _ _ M). exact L.
    - intros j c y C Ey. destruct (matmul_nth _ _ _ _ _ OK M C) as (_ & y' & Ny & Dy). rewrite (Dt c y Ey) in Dy. congruence.
  Qed.
End Fit.

(** A bound for each output gives one for all. *)
Lemma common_bound (P : nat -> nat -> Prop) n : (forall j, j < n -> exists N, forall k, N <= k -> P j k) ->
  exists N, forall j k, j < n -> N <= k -> P j k.
Proof.
  induction n as [|n IH]; intros D; [exists 0; intros j k L; lia|].
  destruct IH as [N HN]; [intros j L; apply D; lia|]. destruct (D n ltac:(lia)) as [N' HN'].
  exists (Nat.max N N'). intros j k L Lk. destruct (Nat.eq_dec j n) as [->|Ne]; [apply HN'; lia|apply HN; lia].
Qed.
Lemma common_bound_list {A} (P : A -> nat -> Prop) l : (forall p, In p l -> exists N, forall k, N <= k -> P p k) ->
  exists N, forall p k, In p l -> N <= k -> P p k.
Proof.
  induction l as [|x l IH]; intros D; [exists 0; intros p k []|].
  destruct IH as [N HN]; [intros p L; apply D; now right|]. destruct (D x ltac:(now left)) as [N' HN'].
  exists (Nat.max N N'). intros p k [<-|L] Lk; [apply HN'; lia|apply HN; [assumption|lia]].
Qed.
