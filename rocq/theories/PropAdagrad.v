(** C85: cumulative error of Adagrad. Statements only; proofs are in AdagradRegret.v. *)
From Coq Require Import List Arith Lia Reals Lra.
From Verif Require Import Base Scalar ScalarR HMap NdArray VecFacts Features Spec FeatureFacts
  Optim OptimSpec OptimFacts OptimReal Lfa LfaSpec LfaFacts LfaReal LfaRegret AdagradFit AdagradRegret.
Import ListNotations.
Local Open Scope R_scope.

(** ** C85 *)

(** Against any fixed weights, as long as no call finds weight [i] further than
    [D i] from them. [acc'] is the accumulator at the end. *)
Theorem C85_regret : forall I (b : Basis R I) lr ws D h w acc, 0 < lr -> Forall (fits b (length w)) h ->
  length acc = length w -> (forall i, 0 <= at_ acc i) ->
  exists w' acc', s_run Adagrad (map fit_call h) (MkLFA b w (MkAdagrad lr acc)) = Ret (MkLFA b w' (MkAdagrad lr acc')) /\
    (exists es, residuals Adagrad (MkLFA b w (MkAdagrad lr acc)) h es) /\
    (stays Adagrad (MkLFA b w (MkAdagrad lr acc)) h ws D -> h <> [] ->
     forall es, residuals Adagrad (MkLFA b w (MkAdagrad lr acc)) h es ->
     rsum (map2 (fun e p => e * (e - unexplained b ws p)) es h) <=
       sigma (length w) (fun i => D i * D i / (2 * lr) * (sqrt (at_ acc' i) + 1 / 10000000)
                                  + lr * (sqrt (at_ acc' i) - sqrt (at_ acc i)))).
Proof. exact @adagrad_regret. Qed.
Print Assumptions C85_regret.

(** The same for the squared errors. *)
Theorem C85_squares : forall I (b : Basis R I) lr ws D h w acc es, 0 < lr -> Forall (fits b (length w)) h ->
  length acc = length w -> (forall i, 0 <= at_ acc i) ->
  stays Adagrad (MkLFA b w (MkAdagrad lr acc)) h ws D -> h <> [] ->
  residuals Adagrad (MkLFA b w (MkAdagrad lr acc)) h es ->
  exists w' acc', s_run Adagrad (map fit_call h) (MkLFA b w (MkAdagrad lr acc)) = Ret (MkLFA b w' (MkAdagrad lr acc')) /\
  (sum_sq es - sum_sq (map (unexplained b ws) h)) / 2 <=
    sigma (length w) (fun i => D i * D i / (2 * lr) * (sqrt (at_ acc' i) + 1 / 10000000)
                               + lr * (sqrt (at_ acc' i) - sqrt (at_ acc i))).
Proof.
  intros I b lr ws D h w acc es Pl Fi La Pa St Ne Re.
  destruct (adagrad_regret b lr ws D h w acc Pl Fi La Pa) as (w' & acc' & E & _ & B). exists w', acc'. split; [exact E|].
  eapply Rle_trans; [|exact (B St Ne es Re)]. pose proof (proj1 Re) as Le. unfold sum_sq. rewrite map_map.
  rewrite <- (rsum_map2_fst (fun e => e * e) es h Le), <- (rsum_map2_snd (fun p => unexplained b ws p * unexplained b ws p) es h Le).
  rewrite <- rsum_map2_minus. unfold Rdiv at 1. rewrite Rmult_comm, <- rsum_map2_scal. apply rsum_map2_le.
  intros e p _. pose proof (Rle_0_sqr (e - unexplained b ws p)) as Q. unfold Rsqr in Q. lra.
Qed.
Print Assumptions C85_squares.

(** Samples that [ws] explains: the squared errors sum to a number that does
    not depend on how many there are. *)
Theorem C85_realisable : forall I (b : Basis R I) lr ws D A h w acc, 0 < lr -> 0 <= A ->
  Forall (consistent b (length w) ws) h ->
  Forall (fun p => forall phi i, b_project b (fst p) = Ret (Ok phi) -> Rabs (coeff phi i) <= A) h ->
  length acc = length w -> (forall i, 0 <= at_ acc i) -> stays Adagrad (MkLFA b w (MkAdagrad lr acc)) h ws D ->
  (forall i, Rabs (at_ w i - at_ ws i) <= D i) ->
  let q := A * sigma (length w) (fun i => D i * D i / (2 * lr) + lr) in
  forall es, residuals Adagrad (MkLFA b w (MkAdagrad lr acc)) h es ->
  sum_sq es <= 2 * sigma (length w) (fun i => D i * D i / (2 * lr) * (sqrt (at_ acc i) + 1 / 10000000)) + q * q.
Proof. exact @adagrad_realisable. Qed.
Print Assumptions C85_realisable.

(** In a table no weight gets further away than it began, or than [lr]. *)
Theorem C85_table_stays : forall I (b : Basis R I) lr ws D h w acc, 0 < lr ->
  Forall (consistent b (length w) ws) h -> Forall (lone b) h -> length acc = length w -> (forall i, 0 <= at_ acc i) ->
  (forall i, Rabs (at_ w i - at_ ws i) <= D i /\ lr <= D i) ->
  stays Adagrad (MkLFA b w (MkAdagrad lr acc)) h ws D.
Proof. intros I b lr ws D h w acc Pl. exact (table_stays b lr ws D Pl h w acc). Qed.
Print Assumptions C85_table_stays.

(** So there the squared errors of a new Adagrad sum to at most this, and big
    errors are counted, whatever the learning rate. *)
Theorem C85_table : forall I (b : Basis R I) lr ws A h w acc, 0 < lr -> 0 <= A ->
  Forall (consistent b (length w) ws) h -> Forall (lone b) h ->
  Forall (fun p => forall phi i, b_project b (fst p) = Ret (Ok phi) -> Rabs (coeff phi i) <= A) h ->
  length acc = length w -> (forall i, 0 <= at_ acc i) ->
  let D i := Rmax (Rabs (at_ w i - at_ ws i)) lr in
  let q := A * sigma (length w) (fun i => D i * D i / (2 * lr) + lr) in
  let bound := 2 * sigma (length w) (fun i => D i * D i / (2 * lr) * (sqrt (at_ acc i) + 1 / 10000000)) + q * q in
  forall es, residuals Adagrad (MkLFA b w (MkAdagrad lr acc)) h es ->
  sum_sq es <= bound /\
  forall eps, 0 < eps ->
    INR (length (filter (fun e => if Rle_dec eps (Rabs e) then true else false) es)) * (eps * eps) <= bound.
Proof.
  intros I b lr ws A h w acc Pl A0 Cs Ls FA La Pa D q bound es Re.
  assert (X : sum_sq es <= bound) by exact (adagrad_table b lr ws A h w acc Pl A0 Cs Ls FA La Pa es Re).
  split; [exact X|]. intros eps Pe. eapply Rle_trans; [apply count_big, Pe|exact X].
Qed.
Print Assumptions C85_table.

(** C51 does not hold for Adagrad: a step can go past the solution and end
    further away, since a first step has length [lr] whatever the error. *)
Definition tab_basis : Basis R nat := MkBasis 2 (fun x => Ret (Ok (Sparse (MkSparse 2 [((x mod 2)%nat, 1)])))).

Lemma tab_sized x : sized 2 (Sparse (MkSparse 2 [((x mod 2)%nat, 1)])).
Proof.
  split; [split|reflexivity].
  - simpl. unfold hm_ok. simpl. repeat constructor; simpl; tauto.
  - apply bounded_sparse. intros i H. cbn [sa_acts sa_dim hm_keys map fst In] in *. destruct H as [<-|[]]. apply Nat.mod_upper_bound. lia.
Qed.

Theorem C85_away_refuted : exists lr ws h w w' acc',
  Forall (consistent tab_basis 2 ws) h /\ 0 < lr /\
  s_run Adagrad (map fit_call h) (MkLFA tab_basis w (adagrad_new 2 lr)) = Ret (MkLFA tab_basis w' (MkAdagrad lr acc')) /\
  dist2 w ws < dist2 w' ws.
Proof.
  exists 10, [1; 0], [(0%nat, 1)], [0; 0].
  destruct (adagrad_fit tab_basis 10 (zeros 2) [0; 0] 0%nat 1 _ eq_refl (tab_sized 0) eq_refl) as (a' & w' & Do & _ & _ & Lw & Na & Nw).
  exists w', a'. splits.
  - repeat constructor. eexists. splits; [reflexivity|apply (tab_sized 0)|]. unfold predict, sigma. simpl. unfold coeff, at_. simpl. lra.
  - lra.
  - unfold s_run. cbn [map ofold]. unfold adagrad_new. rewrite Do. reflexivity.
  - unfold dist2. rewrite Lw. unfold sigma. cbn [length seq map rsum fold_right].
    assert (P0 : predict (Sparse (MkSparse 2 [((0 mod 2)%nat, 1)])) [0; 0] = 0) by (unfold predict, sigma; simpl; unfold coeff, at_; simpl; lra).
    assert (E0 : at_ w' 0 = 0 + 10 * 1 / (sqrt 1 + 1 / 10000000)).
    { rewrite Nw, Na, P0. rewrite at_zeros. unfold coeff, at_. simpl. repeat f_equal; lra. }
    assert (E1 : at_ w' 1 = 0).
    { rewrite Nw, P0. unfold coeff, at_ at 1. simpl. unfold Rdiv. ring. }
    unfold rsum. cbn [fold_right]. rewrite E0, E1, sqrt_1. unfold at_. simpl.
    set (q := 10 * 1 / (1 + 1 / 10000000)). assert (Q : 9 <= q) by (unfold q; lra). 
    assert (8 * 8 <= (0 + q - 1) * (0 + q - 1)) by (apply Rmult_le_compat; lra). lra.
Qed.
Print Assumptions C85_away_refuted.

(** A table of two entries, six samples, a rate of 3 and a used accumulator. *)
Example C85_case :
  let h := [(0%nat, 5); (3%nat, -2); (0%nat, 5); (2%nat, 5); (1%nat, -2); (7%nat, -2)] in
  Forall (consistent tab_basis 2 [5; -2]) h /\ Forall (lone tab_basis) h /\ Forall (fits tab_basis 2) h /\
  Forall (fun p => forall phi i, b_project tab_basis (fst p) = Ret (Ok phi) -> Rabs (coeff phi i) <= 1) h /\
  stays Adagrad (MkLFA tab_basis [0; 0] (MkAdagrad 3 [4; 0])) h [5; -2] (fun _ => 5) /\
  exists es, residuals Adagrad (MkLFA tab_basis [0; 0] (MkAdagrad 3 [4; 0])) h es.
Proof.
  intros h.
  assert (Cs : Forall (consistent tab_basis 2 [5; -2]) h).
  { repeat constructor; eexists; (splits; [reflexivity|apply tab_sized|]); unfold predict, sigma; simpl; unfold coeff, at_; simpl; lra. }
  assert (Ls : Forall (lone tab_basis) h).
  { apply Forall_forall. intros [x y] _. exists (Sparse (MkSparse 2 [((x mod 2)%nat, 1)])), (x mod 2)%nat. split; [reflexivity|].
    intros i Ne. unfold coeff. cbn [sa_acts find fst]. destruct (Nat.eqb_spec (x mod 2) i); [congruence|]. reflexivity. }
  assert (Pa : forall i, 0 <= at_ [4; 0] i) by (intros [|[|[|i]]]; unfold at_; simpl; lra).
  assert (Fi : Forall (fits tab_basis 2) h).
  { eapply Forall_impl; [|exact Cs]. intros p (phi & P & Z & _). exists phi. auto. }
  splits; auto.
  - apply Forall_forall. intros [x y] _ phi i E. assert (Ep : phi = Sparse (MkSparse 2 [((x mod 2)%nat, 1)])) by (cbn [tab_basis b_project fst] in E; congruence).
    subst phi. unfold coeff. cbn [sa_acts find fst].
    destruct (Nat.eqb (x mod 2) i); cbn [snd]; apply Rabs_le; lra.
  - apply C85_table_stays; auto; [lra|]. intros i. split; [|lra]. destruct i as [|[|[|i]]]; unfold at_; simpl; apply Rabs_le; lra.
  - destruct (C85_regret nat tab_basis 3 [5; -2] (fun _ => 5) h [0; 0] [4; 0] ltac:(lra) Fi eq_refl Pa) as (w' & acc' & _ & Ex & _). exact Ex.
Qed.
