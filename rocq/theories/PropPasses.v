(** C71: going over a finite data set again and again. Proofs are in Passes.v. *)
From Coq Require Import List Arith Lia Reals Lra.
From Verif Require Import Base Scalar ScalarR HMap NdArray VecFacts Features Spec FeatureFacts
  Optim OptimSpec OptimFacts OptimReal Lfa LfaSpec LfaFacts LfaReal LfaRegret Passes.
Import ListNotations.
Local Open Scope R_scope.

(** ** C71 *)

(** When some weights fit the samples, every run that keeps coming back to each
    sample converges to weights that fit them all, and of those to the closest
    to where it started. *)
Theorem C71_limit : forall I o lr (b : Basis R I) w D s ws, steady o lr b D -> visits s D ->
  (forall p, In p D -> settled b (length w) ws p) ->
  exists wl, reaches o b lr w s wl /\ (forall p, In p D -> settled b (length w) wl p) /\
    forall v, (forall p, In p D -> settled b (length w) v p) -> dist2 w v = dist2 w wl + dist2 wl v.
Proof. exact @passes_settle. Qed.
Print Assumptions C71_limit.

(** It converges only then. *)
Theorem C71_iff : forall I o lr (b : Basis R I) w D s, steady o lr b D -> visits s D ->
  (forall p, In p D -> fits b (length w) p) ->
  ((exists wl, reaches o b lr w s wl) <-> exists ws, forall p, In p D -> settled b (length w) ws p).
Proof.
  intros I o lr b w D s St V Fi. split.
  - intros [wl Re]. exists wl. exact (limit_settles o lr b w D s wl St V Fi Re).
  - intros [ws Se]. destruct (passes_settle o lr b w D s ws St V Se) as (wl & Re & _). exists wl. exact Re.
Qed.
Print Assumptions C71_iff.

(** Neither the order, the rate nor the choice between SGD and ISGD changes where
    it ends. *)
Theorem C71_same : forall I o lr o' lr' (b : Basis R I) w D s s' wl wl',
  steady o lr b D -> steady o' lr' b D -> visits s D -> visits s' D ->
  (forall p, In p D -> fits b (length w) p) ->
  reaches o b lr w s wl -> reaches o' b lr' w s' wl' -> wl = wl'.
Proof. exact @passes_same. Qed.
Print Assumptions C71_same.

(** Evaluations at the samples come and stay within any distance of their
    targets. *)
Theorem C71_targets : forall I o lr (b : Basis R I) w D s ws, steady o lr b D -> visits s D ->
  (forall p, In p D -> consistent b (length w) ws p) ->
  forall e, 0 < e -> exists N, forall k p, (N <= k)%nat -> In p D -> exists a v,
    s_run o (map fit_call (map s (seq 0 k))) (MkLFA b w lr) = Ret a /\
    s_evaluate a (fst p) = Ret (Ok v) /\ Rabs (v - snd p) < e.
Proof. exact @passes_targets. Qed.
Print Assumptions C71_targets.

(** Whole passes, one after the other. *)
Theorem C71_passes : forall I o lr (b : Basis R I) w D ws, steady o lr b D ->
  (forall p, In p D -> consistent b (length w) ws p) ->
  forall e, 0 < e -> exists N, forall k p, (N <= k)%nat -> In p D -> exists a v,
    s_run o (map fit_call (concat (repeat D k))) (MkLFA b w lr) = Ret a /\
    s_evaluate a (fst p) = Ret (Ok v) /\ Rabs (v - snd p) < e.
Proof. exact @whole_passes. Qed.
Print Assumptions C71_passes.

(** One constant feature. *)
Definition one_basis : Basis R nat := MkBasis 1 (fun _ => Ret (Ok (Dense [1]))).

Lemma one_sized : sized 1 (Dense [1]).
Proof. split; [apply wf_dense|reflexivity]. Qed.

Lemma one_energy p : energy one_basis p = 1.
Proof. unfold energy; simpl. unfold norm2, sigma; simpl. unfold coeff; simpl. lra. Qed.

(** At lr * energy = 2 SGD swings about the solution for ever. *)
Theorem C71_rate_refuted : exists (b : Basis R nat) lr w p ws, 0 < lr /\ lr * energy b p = 2 /\
  consistent b (length w) ws p /\ forall wl, ~ reaches SGD b lr w (fun _ => p) wl.
Proof.
  exists one_basis, 2, [1], (0%nat, 0), [0]. rewrite one_energy. splits; try lra.
  - exists (Dense [1]). splits; [reflexivity|apply one_sized|].
    unfold predict, sigma; simpl. unfold coeff, at_; simpl. lra.
  - intros wl (L & W & Run & Cv).
    assert (E : forall k, at_ (W (S k)) 0 = - at_ (W k) 0 /\ length (W k) = 1%nat).
    { assert (Lw : forall k, length (W k) = 1%nat).
      { intros k. destruct (run_weights SGD 2 (fun _ => 2) (sgd_rule 2) one_basis [1] [(0%nat, 0)] (fun _ => (0%nat, 0))
          ltac:(simpl; auto) ltac:(intros p _; exists (Dense [1]); split; [reflexivity|apply one_sized]) k) as [Lk Ek].
        rewrite Run in Ek. injection Ek as ->. exact Lk. }
      intros k. split; [|apply Lw]. pose proof (Run (S k)) as R. rewrite seq_S, !map_app, s_run_app, Run in R.
      cbn [obind plus map] in R. unfold s_run in R. cbn [ofold] in R.
      destruct (fit_step SGD 2 _ (sgd_rule 2) one_basis (W k) 0%nat 0 (Dense [1]) eq_refl) as (w1 & E1 & _ & _ & N & _).
      { rewrite Lw. apply one_sized. }
      rewrite E1 in R. injection R as ->. rewrite N. unfold predict, sigma; simpl. unfold coeff; simpl. lra. }
    assert (A : forall k, Rabs (at_ (W k) 0) = 1).
    { induction k as [|k IH].
      - pose proof (Run 0%nat) as R. injection R as <-. unfold at_; simpl. apply Rabs_R1.
      - rewrite (proj1 (E k)), Rabs_Ropp. exact IH. }
    destruct (Cv 1 Rlt_0_1) as [N Near]. pose proof (Near N 0%nat ltac:(lia)) as B.
    pose proof (Near (S N) 0%nat ltac:(lia)) as B'. rewrite (proj1 (E N)) in B'. specialize (A N).
    revert B B' A. unfold Rabs. destruct (Rcase_abs (at_ (W N) 0 - at_ wl 0)), (Rcase_abs (- at_ (W N) 0 - at_ wl 0)),
      (Rcase_abs (at_ (W N) 0)); intros; lra.
Qed.
Print Assumptions C71_rate_refuted.

(** Two features, sparse or dense, and samples that determine one solution; the
    passes do visit them. *)
Definition pass_basis : Basis R nat := MkBasis 3 (fun x =>
  if Nat.even x then Ret (Ok (Sparse (MkSparse 3 [(1%nat, 1)]))) else Ret (Ok (Dense [1; 1; 0]))).
Definition pass_data : list (nat * R) := [(4%nat, 1); (1%nat, 4)].

Example C71_case : steady SGD (1/2) pass_basis pass_data /\ steady ISGD 7 pass_basis pass_data /\
  (forall p, In p pass_data -> consistent pass_basis 3 [3; 1; 5] p) /\
  visits (fun k => nth (k mod 2) pass_data (0%nat, 0)) pass_data /\
  (forall s wl, visits s pass_data -> reaches SGD pass_basis (1/2) [0; 0; 2] s wl -> wl = [3; 1; 2]).
Proof.
  assert (Z1 : sized 3 (Sparse (MkSparse 3 [(1%nat, 1)]))).
  { split; [split|]; auto; [repeat constructor; simpl; intuition lia|].
    apply bounded_sparse. simpl. intros i [<-|[]]; lia. }
  assert (Z2 : sized 3 (Dense [1; 1; 0])) by (split; [apply wf_dense|reflexivity]).
  assert (St : steady SGD (1/2) pass_basis pass_data).
  { split; [lra|]. left. split; auto. intros p [<-|[<-|[]]]; unfold energy; simpl; unfold norm2, sigma; simpl; unfold coeff; simpl; lra. }
  assert (Cs : forall u p, In p pass_data -> consistent pass_basis 3 [3; 1; u] p).
  { intros u p [<-|[<-|[]]]; unfold consistent; simpl; eexists; (split; [reflexivity|]); split; auto;
      unfold predict, sigma; simpl; unfold coeff, at_; simpl; lra. }
  splits; auto.
  - split; [lra|auto].
  - apply (cyclic_visits pass_data (0%nat, 0)). discriminate.
  - intros s wl V Re.
    assert (Se : forall u p, In p pass_data -> settled pass_basis 3 [3; 1; u] p).
    { intros u p Ip. destruct (Cs u p Ip) as (phi & P & Z & Y). exists phi. auto. }
    destruct (passes_settle SGD (1/2) pass_basis [0; 0; 2] pass_data s [3; 1; 2] St V (Se 2)) as (v & Rv & Sv & Py).
    rewrite (reaches_unique _ _ _ _ _ _ _ Re Rv). pose proof (Py _ (Se 2)) as A. destruct Rv as [Lv _].
    destruct v as [|v0 [|v1 [|v2 [|]]]]; try discriminate. clear -A Sv.
    destruct (Sv (4%nat, 1) ltac:(simpl; auto)) as (phi & P & _ & Y). injection P as <-.
    destruct (Sv (1%nat, 4) ltac:(simpl; auto)) as (psi & P & _ & Y'). injection P as <-.
    unfold norm2, predict, sigma, coeff, at_ in Y, Y'. simpl in Y, Y'.
    unfold dist2, sigma, at_ in A. simpl in A.
    assert (v1 = 1) by (destruct Y; lra). assert (v0 = 3) by (destruct Y'; lra). subst.
    assert (v2 = 2) by nra. subst. reflexivity.
Qed.
