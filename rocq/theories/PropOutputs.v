(** C83: the outputs of a vector approximator over whole runs. Proofs are in
    Outputs.v and OutputFit.v. *)
From Coq Require Import List Arith ZArith Lia Reals Lra Bool.
From Flocq Require Import Core.Core IEEE754.BinarySingleNaN.
From Verif Require Import Base Scalar ScalarR ScalarF64 F64Facts HMap NdArray VecFacts Features Spec FeatureFacts
  SumOrder NormF64 BoundF64 Optim OptimSpec Lfa LfaSpec LfaFacts LfaReal LfaRegret Passes Coeffs Kernels TileCoding Basis TileFacts EndToEnd
  TableF64 SgdF64 SgdRun64 SgdFinite64 Outputs OutputFit.
From Verif Require PropPasses PropTable PropTrain64 PropLfa.
Import ListNotations.
Local Open Scope R_scope.

(** ** C83 *)

(** Any calls, in any order, on an approximator whose optimiser has no state of
    its own: each output ends with the weights it would have as a scalar
    approximator that is given its share of the calls. [on_output] says what the
    share is; a closure passed to [update_with] may use the features and that
    output, not the others. *)
Theorem C83_share : forall F I S `{Scalar F} (o : Optimiser F S) cs scs (v v' : VectorLFA F I S) j c,
  keeps_length o -> memoryless o -> matrix_ok (lfa_weights v) -> column (lfa_weights v) j = Ret c ->
  Forall2 (on_output (n_outputs v) j) cs scs -> v_run o cs v = Ret v' ->
  exists c', column (lfa_weights v') j = Ret c' /\
    s_run o (concat scs) (MkLFA (lfa_basis v) c (lfa_optimiser v)) = Ret (MkLFA (lfa_basis v) c' (lfa_optimiser v)).
Proof. intros F I S H o cs scs v v' j c KL ML. exact (v_run_output o KL ML cs scs v v' j c). Qed.
Print Assumptions C83_share.

(** And no more panics than they would, as long as indices are in range. *)
Theorem C83_panics : forall F I S `{Scalar F} (o : Optimiser F S) cs (v : VectorLFA F I S),
  keeps_length o -> memoryless o -> matrix_ok (lfa_weights v) ->
  Forall (fun k => b_project (lfa_basis v) (call_input k) <> Panic /\ call_index (n_outputs v) k) cs ->
  (forall j c, column (lfa_weights v) j = Ret c -> exists scs a', Forall2 (on_output (n_outputs v) j) cs scs /\
     s_run o (concat scs) (MkLFA (lfa_basis v) c (lfa_optimiser v)) = Ret a') ->
  exists v', v_run o cs v = Ret v'.
Proof. intros F I S H o cs v KL ML. exact (v_run_defined o KL ML cs v). Qed.
Print Assumptions C83_panics.

(** A closure that mixes the outputs escapes this: here each output is moved by
    the other's error. *)
Definition mix (x : nat) : v_call R nat := VUpdateWith x (fun _ vs => ow_vec (rev vs)).
Theorem C83_mixed_refuted : exists (v1 v2 v1' v2' : VectorLFA R nat R) c c1 c2,
  column (lfa_weights v1) 0 = Ret c /\ column (lfa_weights v2) 0 = Ret c /\
  v_run SGD [mix 0%nat] v1 = Ret v1' /\ v_run SGD [mix 0%nat] v2 = Ret v2' /\
  column (lfa_weights v1') 0 = Ret c1 /\ column (lfa_weights v2') 0 = Ret c2 /\ c1 <> c2.
Proof.
  set (b := MkBasis 1 (fun _ : nat => Ret (Ok (Dense [1])))).
  exists (MkLFA b (MkMatrix [[0; 1]] 2) 1), (MkLFA b (MkMatrix [[0; 2]] 2) 1).
  do 5 eexists. do 6 (split; [reflexivity|]). intros E. injection E as E. revert E. to_R. cbn. lra.
Qed.
Print Assumptions C83_mixed_refuted.

(** Fitting vectors of targets: one scalar fit per output. *)
Theorem C83_fit : forall F I S `{Scalar F} (o : Optimiser F S) h (v : VectorLFA F I S),
  keeps_length o -> memoryless o -> matrix_ok (lfa_weights v) ->
  Forall (fun p => length (snd p) = n_outputs v) h -> Forall (fun p => b_project (lfa_basis v) (fst p) <> Panic) h ->
  ((exists v', v_run o (map v_fit h) v = Ret v') <->
   forall j c, column (lfa_weights v) j = Ret c -> exists a',
     s_run o (map s_fit (map (target j) h)) (MkLFA (lfa_basis v) c (lfa_optimiser v)) = Ret a') /\
  forall v', v_run o (map v_fit h) v = Ret v' -> lfa_basis v' = lfa_basis v /\
    forall j c, column (lfa_weights v) j = Ret c -> exists c', column (lfa_weights v') j = Ret c' /\
      s_run o (map s_fit (map (target j) h)) (MkLFA (lfa_basis v) c (lfa_optimiser v)) = Ret (MkLFA (lfa_basis v) c' (lfa_optimiser v)).
Proof.
  intros F I S H o h v KL ML OK L NP. split; [split|].
  - intros [v' E] j c C. destruct (fit_column o KL ML h v v' j c OK L E C) as (c' & _ & E'). eauto.
  - intros D. destruct (fit_defined o KL ML h v OK L NP D) as (v' & E & _). eauto.
  - intros v' E. split; [apply (v_run_shape o KL _ v v' OK E)|]. intros j c C. exact (fit_column o KL ML h v v' j c OK L E C).
Qed.
Print Assumptions C83_fit.

(** So passes over samples that some weights explain bring all outputs to their
    targets. *)
Theorem C83_passes : forall I o lr (b : Basis R I) wm (D : list (I * list R)) (ws : nat -> list R),
  matrix_ok wm -> Forall (fun p => length (snd p) = ncols wm) D ->
  (forall j, (j < ncols wm)%nat -> steady o lr b (map (target j) D)) ->
  (forall j p, (j < ncols wm)%nat -> In p (map (target j) D) -> consistent b (nrows wm) (ws j) p) ->
  Forall (fun p => exists phi, b_project b (fst p) = Ret (Ok phi)) D ->
  keeps_length o -> memoryless o ->
  forall e, 0 < e -> exists N, forall k p, (N <= k)%nat -> In p D -> exists v vs,
    v_run o (map v_fit (concat (repeat D k))) (MkLFA b wm lr) = Ret v /\
    v_evaluate v (fst p) = Ret (Ok vs) /\ length vs = ncols wm /\
    Forall2 (fun x y => Rabs (x - y) < e) vs (snd p).
Proof.
  intros I o lr b wm D ws OK L St Cs Pr KL ML e Pe.
  destruct (common_bound (fun j k => forall p, In p (map (target j) D) -> forall c, column wm j = Ret c -> exists a v,
    s_run o (map fit_call (concat (repeat (map (target j) D) k))) (MkLFA b c lr) = Ret a /\
    s_evaluate a (fst p) = Ret (Ok v) /\ Rabs (v - snd p) < e) (ncols wm)) as [N HN].
  { intros j Lj. destruct (column_lt wm j OK Lj) as (c & C & Lc & _).
    destruct (PropPasses.C71_passes I o lr b c (map (target j) D) (ws j) (St j Lj)) with (e := e) as [N HN]; auto.
    { intros p Ip. rewrite Lc. exact (Cs j p Lj Ip). }
    exists N. intros k Lk p Ip c' C'. assert (c' = c) by congruence. subst c'. exact (HN k p Lk Ip). }
  exists N. intros k p Lk Ip. set (h := concat (repeat D k)). set (v := MkLFA b wm lr : VectorLFA R I R).
  assert (In_h : forall q, In q h -> In q D).
  { intros q Iq. unfold h in Iq. apply in_concat in Iq. destruct Iq as (l & Il & Iq). apply repeat_spec in Il. subst l. exact Iq. }
  assert (Lh : Forall (fun p => length (snd p) = n_outputs v) h).
  { apply Forall_forall. intros q Iq. rewrite Forall_forall in L. exact (L q (In_h q Iq)). }
  assert (Ph : Forall (fun p => b_project (lfa_basis v) (fst p) <> Panic) h).
  { apply Forall_forall. intros q Iq. rewrite Forall_forall in Pr. destruct (Pr q (In_h q Iq)) as [phi E]. cbn [v lfa_basis]. rewrite E. discriminate. }
  assert (Th : forall j, map (target j) h = concat (repeat (map (target j) D) k)).
  { intros j. unfold h. rewrite concat_map. f_equal. clear. induction k; simpl; congruence. }
  assert (Run : forall j c, column (lfa_weights v) j = Ret c -> exists a y,
      s_run o (map s_fit (map (target j) h)) (MkLFA (lfa_basis v) c (lfa_optimiser v)) = Ret a /\
      s_evaluate a (fst p) = Ret (Ok y) /\ Rabs (y - nth j (snd p) 0) < e).
  { intros j c C. assert (Lj : (j < ncols wm)%nat) by (apply (column_Ret _ _ _ OK C)).
    destruct (HN j k Lj Lk (target j p) (in_map _ _ _ Ip) c C) as (a & y & E & Ey & B). exists a, y. rewrite Th. split; [exact E|]. split; [exact Ey|].
    unfold target in B. cbn [snd] in B. rewrite fzero_R in B. exact B. }
  destruct (fit_defined o KL ML h v OK Lh Ph) as (v' & Ev & Bv & OK' & Rw & Cw).
  { intros j c C. destruct (Run j c C) as (a & _ & E & _). eauto. }
  rewrite Forall_forall in Pr. destruct (Pr p Ip) as [phi P].
  assert (Ov : forall j c, column (lfa_weights v') j = Ret c -> exists y,
    s_evaluate (MkLFA (lfa_basis v') c (lfa_optimiser v')) (fst p) = Ret (Ok y) /\ Rabs (y - nth j (snd p) 0) < e).
  { intros j c' C'. assert (Lj : (j < ncols wm)%nat). { change (ncols wm) with (ncols (lfa_weights v)). rewrite <- Cw. apply (column_Ret _ _ _ OK' C'). }
    destruct (column_lt wm j OK Lj) as (c & C & _). destruct (Run j c C) as (a & y & E & Ey & B).
    destruct (fit_column o KL ML h v v' j c OK Lh Ev C) as (c2 & C2 & E2). assert (c2 = c') by congruence. subst c2.
    assert (a = MkLFA (lfa_basis v) c' (lfa_optimiser v)) by congruence. subst a. exists y. rewrite Bv. split; [exact Ey|exact B]. }
  destruct (evaluate_outputs v' (fst p) OK') as (vs & Evs & Lvs & Nvs).
  { exists phi. rewrite Bv. exact P. }
  { intros j c C. destruct (Ov j c C) as (y & Ey & _). eauto. }
  exists v', vs. split; [exact Ev|]. split; [exact Evs|].
  assert (Ln : length vs = ncols wm) by (rewrite Lvs; exact Cw). split; [exact Ln|].
  rewrite Forall_forall in L. pose proof (L p Ip) as Lp.
  assert (Nth : forall j x y, nth_error vs j = Some x -> nth_error (snd p) j = Some y -> Rabs (x - y) < e).
  { intros j x y Nx Ny. assert (Lj : (j < ncols (lfa_weights v'))%nat). { rewrite Cw. change (j < ncols wm)%nat. rewrite <- Ln. apply nth_error_Some. congruence. }
    destruct (column_lt (lfa_weights v') j OK' Lj) as (c & C & _). destruct (Ov j c C) as (y' & Ey & B).
    rewrite (Nvs j c y' C Ey) in Nx. injection Nx as <-. rewrite (nth_error_nth _ _ 0 Ny) in B. exact B. }
  assert (Lq : length vs = length (snd p)) by congruence. clear - Nth Lq. revert Lq Nth. generalize (snd p) as ys.
  induction vs as [|x vs IH]; intros [|y ys] Lq Nth; try discriminate; constructor.
  - exact (Nth 0%nat x y eq_refl eq_refl).
  - apply IH; [simpl in Lq; lia|]. intros j. exact (Nth (S j)).
Qed.
Print Assumptions C83_passes.

(** A grid trained by SGD(1.0) in binary64 stores vectors. *)
Theorem C83_grid : forall P (space : list (equipartition f64)) h n B, let S := ScalarF64 P in
  into_range space -> space <> [] -> B <= bpow radix2 1022 ->
  Forall (fun p => length (fst p) = length space /\ length (snd p) = n /\
    Forall (fun y => b_finite y = true /\ Rabs (b_real y) <= B) (snd p)) h ->
  exists v, v_run SGD (map v_fit h) (vector (as_basis (grid_new space)) b_one n) = Ret v /\
  forall x, length x = length space -> exists vs, v_evaluate v x = Ret (Ok vs) /\ length vs = n /\
    forall j y, nth_error vs j = Some y -> b_finite y = true /\
      let ts := cell_targets space x (map (target j) h) in
      (ts = [] -> b_real y = 0) /\
      (forall t, ts = [t] -> b_real y = b_real t) /\
      (forall l t, ts = l ++ [t] -> Rabs (b_real y - b_real t) <= bpow radix2 (-50) * B) /\
      (forall l s t, ts = l ++ [s; t] -> b_real s = b_real t -> b_real y = b_real t).
Proof.
  intros P space h n B S IR NE LB Hh.
  set (b := @as_basis f64 S (grid_new space)). set (v := @vector f64 (list f64) f64 S b b_one n).
  assert (OK : matrix_ok (lfa_weights v)) by apply mzeros_ok.
  assert (Nv : n_outputs v = n) by exact (proj2 (@mzeros_shape f64 S (b_dim b) n)).
  assert (Col : forall j c, column (lfa_weights v) j = Ret c -> (j < n)%nat /\ c = lfa_weights (scalar b b_one)).
  { intros j c C. pose proof (column_Ret _ _ _ OK C) as [Lj _]. split; [rewrite <- Nv; exact Lj|].
    assert (Lj' : (j < n)%nat) by (rewrite <- Nv; exact Lj). pose proof (@mzeros_column f64 S (b_dim b) n j Lj') as Z.
    cbn [v vector lfa_weights] in C. rewrite Z in C. injection C as <-. reflexivity. }
  assert (Lh : Forall (fun p => length (snd p) = n_outputs v) h).
  { eapply Forall_impl; [|exact Hh]. intros p (_ & Lp & _). rewrite Nv. exact Lp. }
  assert (Pj : forall x, length x = length space -> exists phi, b_project b x = Ret (Ok phi)).
  { intros x Lx. destruct (PropTable.C70_grid P space [] B IR NE LB (Forall_nil _)) as (a & Ea & Ex).
    destruct (Ex x Lx) as (y & Ey & _). injection Ea as <-. unfold s_evaluate in Ey. cbn [scalar lfa_new lfa_basis] in Ey.
    change (b_project b x) with (b_project (@as_basis f64 (ScalarF64 P) (grid_new space)) x).
    destruct (b_project _ x) as [[phi|er]|]; [eauto|discriminate|discriminate]. }
  assert (Th : forall j, (j < n)%nat -> Forall (fun p => length (fst p) = length space /\ b_finite (snd p) = true /\ Rabs (b_real (snd p)) <= B) (map (target j) h)).
  { intros j Lj. apply Forall_forall. intros q Iq. apply in_map_iff in Iq. destruct Iq as (p & <- & Ip).
    rewrite Forall_forall in Hh. destruct (Hh p Ip) as (L1 & L2 & Fy). split; [exact L1|]. rewrite Forall_forall in Fy. unfold target. cbn [snd].
    apply Fy. apply nth_In. lia. }
  assert (Run : forall j c, column (lfa_weights v) j = Ret c -> exists a,
      s_run SGD (map s_fit (map (target j) h)) (MkLFA (lfa_basis v) c (lfa_optimiser v)) = Ret a /\
      forall x, length x = length space -> exists y, s_evaluate a x = Ret (Ok y) /\ b_finite y = true /\
      let ts := cell_targets space x (map (target j) h) in
      (ts = [] -> b_real y = 0) /\
      (forall t, ts = [t] -> b_real y = b_real t) /\
      (forall l t, ts = l ++ [t] -> Rabs (b_real y - b_real t) <= bpow radix2 (-50) * B) /\
      (forall l s t, ts = l ++ [s; t] -> b_real s = b_real t -> b_real y = b_real t)).
  { intros j c C. destruct (Col j c C) as [Lj ->].
    destruct (PropTable.C70_grid P space (map (target j) h) B IR NE LB (Th j Lj)) as (a & Ea & Ex). exists a. split; [exact Ea|]. exact Ex. }
  destruct (fit_defined SGD sgd_keeps_length sgd_memoryless h v OK Lh) as (v' & Ev & Bv & OK' & Rw & Cw).
  { apply Forall_forall. intros p Ip. rewrite Forall_forall in Hh. destruct (Hh p Ip) as (L1 & _). destruct (Pj _ L1) as [phi E].
    intros X. assert (Y : b_project b (fst p) = Panic) by exact X. congruence. }
  { intros j c C. destruct (Run j c C) as (a & E & _). eauto. }
  exists v'. split; [exact Ev|]. intros x Lx.
  assert (Ov : forall j c, column (lfa_weights v') j = Ret c -> exists y,
    s_evaluate (MkLFA (lfa_basis v') c (lfa_optimiser v')) x = Ret (Ok y) /\ b_finite y = true /\
      let ts := cell_targets space x (map (target j) h) in
      (ts = [] -> b_real y = 0) /\
      (forall t, ts = [t] -> b_real y = b_real t) /\
      (forall l t, ts = l ++ [t] -> Rabs (b_real y - b_real t) <= bpow radix2 (-50) * B) /\
      (forall l s t, ts = l ++ [s; t] -> b_real s = b_real t -> b_real y = b_real t)).
  { intros j c' C'. assert (Lj : (j < ncols (lfa_weights v))%nat) by (pose proof (proj1 (column_Ret _ _ _ OK' C')) as Lj'; rewrite Cw in Lj'; exact Lj').
    destruct (column_lt (lfa_weights v) j OK Lj) as (c & C & _). destruct (Run j c C) as (a & E & Ex). destruct (Ex x Lx) as (y & Ey & R).
    destruct (fit_column SGD sgd_keeps_length sgd_memoryless h v v' j c OK Lh Ev C) as (c2 & C2 & E2). assert (c2 = c') by congruence. subst c2.
    assert (X : Ret a = Ret (MkLFA (lfa_basis v) c' (lfa_optimiser v))) by exact (eq_trans (eq_sym E) E2). injection X as ->. exists y. rewrite Bv. split; [exact Ey|exact R]. }
  destruct (evaluate_outputs v' x OK') as (vs & Evs & Lvs & Nvs).
  { rewrite Bv. exact (Pj x Lx). }
  { intros j c C. destruct (Ov j c C) as (y & Ey & _). eauto. }
  exists vs. split; [exact Evs|]. split; [rewrite Lvs; etransitivity; [exact Cw|exact Nv]|].
  intros j y Ny. assert (Lj : (j < ncols (lfa_weights v'))%nat) by (change (j < n_outputs v')%nat; rewrite <- Lvs; apply nth_error_Some; congruence).
  destruct (column_lt (lfa_weights v') j OK' Lj) as (c & C & _). destruct (Ov j c C) as (y' & Ey & R).
  rewrite (Nvs j c y' C Ey) in Ny. injection Ny as <-. exact R.
Qed.
Print Assumptions C83_grid.

(** Two outputs over the basis of C42: evaluations and updates of all kinds. *)
Definition mixed_calls : list (v_call R nat) :=
  [VUpdate 4%nat [1; 2]; VEvaluate 1%nat; VUpdateIndex 1%nat 0 3; v_fit (4%nat, [5; 6]); VEvaluateIndex 4%nat 0; VUpdate 1%nat [7]].
Definition second_share : list (list (s_call R nat)) :=
  [[SUpdate 4%nat 2]; [SEvaluate 1%nat]; []; [s_fit (4%nat, 6)]; []; []].
Example C83_case : let v := vector PropLfa.ex_basis 1 2 in
  Forall2 (on_output (n_outputs v) 1) mixed_calls second_share /\ exists v', v_run SGD mixed_calls v = Ret v'.
Proof.
  intros v. split.
  - unfold mixed_calls, second_share. constructor; [now constructor|]. constructor; [constructor|]. constructor; [now constructor|].
    constructor; [exact (fit_on 2 1 (4%nat, [5; 6]) eq_refl ltac:(lia))|]. constructor; [now constructor|]. constructor; [now constructor|constructor].
  - eexists. reflexivity.
Qed.

(** Two outputs fitted to 5 and 6 at rate 1/2; a grid of two by three cells that
    stores pairs. *)
Example C83_fit_case : let D := [(0%nat, [5; 6])] in let b := PropPasses.one_basis in
  (forall j, (j < 2)%nat -> steady SGD (1/2) b (map (target j) D)) /\
  (forall j p, (j < 2)%nat -> In p (map (target j) D) -> consistent b 1 (match j with O => [5] | _ => [6] end) p) /\
  let d m e := b_dyadic m e in
  into_range [PropTable.bin 2; PropTable.bin 3] /\
  Forall (fun p : list f64 * list f64 => length (fst p) = 2%nat /\ length (snd p) = 2%nat /\
      Forall (fun y => b_finite y = true /\ Rabs (b_real y) <= 7) (snd p)) [([d 1 0; d 5 (-1)], [d 3 0; d 0 0])]%Z.
Proof.
  cbv zeta. split; [|split; [|split]].
  - intros j Lj. split; [lra|]. left. split; [reflexivity|]. intros p _. rewrite PropPasses.one_energy. lra.
  - intros j p Lj Ip. exists (Dense [1]). cbn [map In] in Ip. destruct Ip as [<-|[]]. split; [reflexivity|]. split; [apply PropPasses.one_sized|].
    destruct j as [|[|j]]; [| |lia]; unfold predict, sigma, target; simpl; unfold coeff, at_; simpl; lra.
  - intros e v [<-|[<-|[]]]; cbn [PropTable.bin ep_map_onto ep_n]; lia.
  - repeat constructor; try (vm_compute; reflexivity).
    + replace (b_real (b_dyadic 3 0)) with 3 by (symmetry; exact PropTrain64.three_real). rewrite Rabs_right; lra.
    + replace (b_real (b_dyadic 0 0)) with 0 by reflexivity. rewrite Rabs_R0. lra.
Qed.
