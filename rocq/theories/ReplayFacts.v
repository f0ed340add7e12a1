(** The repository's tests hold of the model. Facts for C66. *)
From Coq Require Import List Arith ZArith Lia Bool Reals Lra QArith Qreals.
From Flocq Require Import Core.Core IEEE754.BinarySingleNaN.
From Verif Require Import Base Scalar ScalarR ScalarF64 F64Facts HMap HMapFacts NdArray VecFacts Features Spec FeatureFacts
  Coeffs CoeffFacts Kernels TileCoding Basis BasisFacts NormF64 NonnegF64 NormL2F64 SpaceF64 BoundF64 SumOrder Replay ExpBounds.
Import ListNotations.
Local Open Scope R_scope.

(** ** Assertions *)

Lemma checks_true l : checks l = Ret true <-> forall t, In t l -> t = Ret true.
Proof.
  unfold checks. induction l as [|t l IH]; simpl.
  - split; [intros _ t []|reflexivity].
  - unfold check at 1. split.
    + destruct t as [[]|]; cbn [obind]; try discriminate. intros E t [<-|I]; auto. apply IH; auto.
    + intros A. rewrite (A t) by auto. cbn [obind]. apply IH. auto.
Qed.

Lemma compare_floats_true P a b tol :
  @compare_floats f64 (ScalarF64 P) a b tol = true <->
  forall i x y, nth_error a i = Some x -> nth_error b i = Some y -> Bltb (Babs (b_sub x y)) tol = true.
Proof.
  unfold compare_floats. rewrite forallb_forall. split.
  - intros A i x y Ex Ey. apply (A (x, y)).
    clear A. revert i b Ex Ey. induction a as [|u a IH]; intros [|i] [|v b] Ex Ey; try discriminate; simpl in *.
    + injection Ex as ->. injection Ey as ->. auto.
    + right. eapply IH; eauto.
  - intros A [x y] I. cbn [fst snd]. revert b A I. induction a as [|u a IH]; intros [|v b] A I; try (destruct I; fail).
    destruct I as [E|I].
    + injection E as -> ->. apply (A 0%nat); reflexivity.
    + apply (IH b); auto. intros i x' y' Ex Ey. apply (A (S i)); auto.
Qed.

(** ** The randomised tests *)

Lemma vec_eqb_refl_f64 P (l : list f64) : @vec_eqb f64 (ScalarF64 P) l l = true <-> forall x, In x l -> b_is_nan x = false.
Proof.
  induction l as [|y l IH]; cbn [vec_eqb feqb ScalarF64].
  - split; [intros _ x []|reflexivity].
  - rewrite andb_true_iff, b_eqb_refl, IH. split.
    + intros [A B] x [<-|I]; auto. destruct (b_is_nan y); auto; discriminate.
    + intros A. split; [rewrite (A y) by (simpl; auto); reflexivity|]. intros x I. apply A. simpl. auto.
Qed.

Theorem project_general_passes P constants input :
  test_project_general P constants input = Ret true <-> forall x, In x constants -> b_is_nan x = false.
Proof.
  unfold test_project_general. cbn [project unwrap obind into_dense]. rewrite Nat.eqb_refl.
  rewrite <- (vec_eqb_refl_f64 P). unfold on_platform. cbn [andb]. split; [congruence|intros ->; reflexivity].
Qed.

Theorem bin_state_1d_passes P state n : test_bin_state_1d P state n = Ret true.
Proof.
  unfold test_bin_state_1d. unfold bin_state, vget. cbn [map nth_error obind]. rewrite Z.eqb_refl. reflexivity.
Qed.

Lemma sub_self_below P x : @fltb f64 (ScalarF64 P) (b_sub x x) (@flit f64 (ScalarF64 P) 1 10000000) = b_finite x.
Proof.
  destruct (b_finite x) eqn:Fx.
  - destruct (b_sub_self x) as [[s ->]|E].
    + destruct s; vm_compute; reflexivity.
    + exfalso. pose proof (Bminus_correct 53 1024 f64_prec f64_emax mode_NE x x Fx Fx) as Q.
      rewrite Rminus_diag_eq, round_0, Rabs_R0, Rlt_bool_true in Q; try reflexivity; try typeclasses eauto; try apply bpow_gt_0.
      destruct Q as (_ & Q & _). unfold b_sub in E. rewrite E in Q. discriminate.
  - destruct x as [s|[]| |s m e B]; try discriminate Fx; vm_compute; reflexivity.
Qed.

Lemma below_self P norm l : below P norm (map (fun x => b_div x norm) l) l = true <->
  forall x, In x l -> b_finite (b_div x norm) = true.
Proof.
  unfold below. rewrite forallb_forall. split.
  - intros A x I. specialize (A (b_div x norm, x)). cbn [fst snd] in A.
    rewrite <- (sub_self_below P). apply A. clear A.
    induction l as [|y l IH]; simpl in *; [tauto|]. destruct I as [<-|I]; auto.
  - intros A [u x] I. cbn [fst snd].
    assert (E : u = b_div x norm /\ In x l).
    { clear A. revert I. induction l as [|y l IH]; simpl; [tauto|]. intros [E|I]; [injection E as <- <-; auto|]. destruct (IH I). auto. }
    destruct E as [-> I']. change (@fltb f64 (ScalarF64 P) (b_sub (b_div x norm) (b_div x norm)) (@flit f64 (ScalarF64 P) 1 10000000) = true).
    rewrite sub_self_below. auto.
Qed.

Lemma fold_left_map {A B C} (f : A -> B -> A) (g : C -> B) : forall l a, fold_left f (map g l) a = fold_left (fun a x => f a (g x)) l a.
Proof. induction l; intros; simpl; auto. Qed.

Theorem l1_passes P constants : test_l1 P constants = Ret true <->
  constants = [] \/ (all_finite constants /\ exists x, In x constants /\ Beqb x b_zero = false).
Proof.
  rewrite <- (l1_quotients P), <- (below_self P).
  assert (E : test_l1 P constants = Ret (below P (@l1_norm f64 (ScalarF64 P) constants)
    (map (fun x => b_div x (@l1_norm f64 (ScalarF64 P) constants)) constants) constants)).
  { unfold test_l1. cbn [project unwrap obind rmap into_dense normalise_by]. rewrite fold_left_map. reflexivity. }
  rewrite E. split; [congruence|intros ->; reflexivity].
Qed.

Theorem l2_passes P constants : test_l2 P constants = Ret true <->
  constants = [] \/ (all_finite constants /\ Beqb (fold_left b_add (map (fun v => b_mul v v) constants) b_zero) b_zero = false).
Proof.
  rewrite fold_left_map. rewrite <- (l2_quotients P), <- (below_self P).
  assert (E : test_l2 P constants = Ret (below P (@l2_norm f64 (ScalarF64 P) constants)
    (map (fun x => b_div x (@l2_norm f64 (ScalarF64 P) constants)) constants) constants)).
  { unfold test_l2. cbn [project unwrap obind rmap into_dense normalise_by]. rewrite fold_left_map. reflexivity. }
  rewrite E. split; [congruence|intros ->; reflexivity].
Qed.

(** Neither test ever panics. *)
Theorem norm_tests_return P constants : (exists b, test_l1 P constants = Ret b) /\ (exists b, test_l2 P constants = Ret b).
Proof. split; eexists; reflexivity. Qed.

(** ** The unit tests that do not call libm *)

(** ndarray's own order of summation (contiguous arrays, no BLAS). *)
Definition unrolled_order (P : Platform) : Prop :=
  p_sum P = unrolled_sum /\ p_dot P = (fun a b => unrolled_sum (map2 b_mul a b)).

Theorem features_tests_pass P : unrolled_order P ->
  test_sparse P = Ret true /\ test_dense P = Ret true /\ test_map_inplace P = Ret true /\ test_merge_inplace P = Ret true /\
  doc_remove P = Ret true /\ doc_into_dense P = Ret true /\ doc_stack P = Ret true /\ doc_dot P = Ret true /\ doc_matmul P = Ret true.
Proof.
  intros [S D]. destruct P as [c e l p s d]. cbn [p_sum p_dot] in S, D. subst s d.
  repeat split; vm_compute; reflexivity.
Qed.

Theorem bases_tests_pass P : doc_bias P = Ret true /\ test_kernel_n_features P = Ret true /\ test_bin_state_2d P = Ret true /\
  test_stack_constant P = Ret true /\ test_stack_indices P = Ret true /\ test_stack_mixed P = Ret true /\
  test_fourier_n_features P = Ret true.
Proof. repeat split; vm_compute; reflexivity. Qed.

(** [powi] is exact on the documented inputs. *)
Theorem polynomial_doc_passes P : p_powi P = b_powi -> doc_polynomial P = Ret true.
Proof. intros E. destruct P as [c e l p s d]. cbn [p_powi] in E. subst p. vm_compute. reflexivity. Qed.

(** ** The uniform grid *)

Lemma active_lt : forall bins acc, (forall b, In b bins -> (b < 10)%nat) ->
  (fold_left (fun a b => a * 10 + b) bins acc < (acc + 1) * 10 ^ length bins)%nat.
Proof.
  induction bins as [|b bins IH]; intros acc L; cbn [fold_left length Nat.pow]; [lia|].
  assert (Lb : (b < 10)%nat) by (apply L; simpl; auto).
  eapply Nat.lt_le_trans; [apply IH; intros; apply L; simpl; auto|].
  rewrite Nat.mul_assoc. apply Nat.mul_le_mono_r. lia.
Qed.

Lemma grid_fold P (ep : equipartition f64) : ep_n ep = 10%nat -> (forall b, (b < 10)%nat -> ep_map_onto ep (@fofnat f64 (ScalarF64 P) b) = b) ->
  forall bins acc, (forall b, In b bins -> (b < 10)%nat) ->
  fold_left (fun a dv => ep_map_onto (fst dv) (snd dv) + ep_n (fst dv) * a)%nat
    (combine (repeat ep (length bins)) (map (@fofnat f64 (ScalarF64 P)) bins)) acc =
  fold_left (fun a b => a * 10 + b)%nat bins acc.
Proof.
  intros En Em. induction bins as [|b bins IH]; intros acc L; [reflexivity|].
  cbn [length repeat map combine fold_left fst snd]. rewrite Em by (apply L; simpl; auto). rewrite En.
  rewrite IH by (intros; apply L; simpl; auto). f_equal. lia.
Qed.

Lemma grid_total (ep : equipartition f64) k : ep_n ep = 10%nat -> fold_right Nat.mul 1%nat (map ep_n (repeat ep k)) = (10 ^ k)%nat.
Proof. intros En. induction k; cbn [repeat map fold_right Nat.pow]; [reflexivity|]. rewrite En, IHk. reflexivity. Qed.

Lemma vset_lt {A} (v : A) : forall l i, (i < length l)%nat -> exists l', vset l i v = Ret l' /\ forall x, In x l' -> x = v \/ In x l.
Proof.
  unfold vset. induction l as [|y l IH]; intros i L; cbn [length] in L; [lia|]. destruct i as [|i]; cbn [vupd].
  - eexists. split; [reflexivity|]. intros x [<-|I]; simpl; auto.
  - destruct (IH i) as (l' & -> & Q); [lia|]. cbn [obind]. eexists. split; [reflexivity|].
    intros x [<-|I]; simpl; auto. destruct (Q x I); auto.
Qed.

Theorem grid_case_passes P (ep : equipartition f64) bins : bins <> [] ->
  ep_n ep = 10%nat -> (forall b, (b < 10)%nat -> ep_map_onto ep (@fofnat f64 (ScalarF64 P) b) = b) ->
  (forall b, In b bins -> (b < 10)%nat) -> grid_case P ep bins = Ret true.
Proof.
  intros Ne En Em L. unfold grid_case.
  set (active := fold_left (fun acc b => acc * 10 + b)%nat bins 0%nat).
  assert (La : (active < 10 ^ length bins)%nat). { pose proof (active_lt bins 0 L) as Q. fold active in Q. lia. }
  assert (Et : dim (grid_new (repeat ep (length bins))) = (10 ^ length bins)%nat) by (apply grid_total, En).
  assert (Eh : grid_hash (repeat ep (length bins)) (map (@fofnat f64 (ScalarF64 P)) bins) = Ret active).
  { destruct bins as [|b bins]; [tauto|]. cbn [length repeat map grid_hash].
    rewrite (grid_fold P ep En Em) by (intros; apply L; simpl; auto).
    rewrite Em by (apply L; simpl; auto). reflexivity. }
  unfold eqn. rewrite Et, Nat.eqb_refl. unfold check at 1. cbn [obind].
  set (total := (10 ^ length bins)%nat) in *.
  assert (Ep : @project f64 (on_platform P) (grid_new (repeat ep (length bins))) (map (@fofnat f64 (on_platform P)) bins) =
    Ret (Ok (Sparse (MkSparse total [(active, @fone f64 (ScalarF64 P))])))).
  { unfold grid_new. cbn [project]. change (on_platform P) with (ScalarF64 P). rewrite Eh. cbn [obind].
    rewrite grid_total by exact En. reflexivity. }
  rewrite Ep. cbn [unwrap obind n_features sa_dim sa_acts n_active length]. rewrite Nat.eqb_refl.
  unfold check at 1. cbn [obind]. rewrite Nat.eqb_refl. unfold check at 1. cbn [obind].
  cbn [uget sa_acts hm_get]. rewrite Nat.eqb_refl. cbn [obind].
  unfold check at 1. cbn [obind].
  replace (@fltb f64 (on_platform P) (@flit f64 (on_platform P) 0 1) (@fone f64 (ScalarF64 P))) with true by (vm_compute; reflexivity).
  assert (Lz : (active < length (repeat (@flit f64 (on_platform P) 0 1) total))%nat) by (rewrite repeat_length; exact La).
  destruct (vset_lt (@flit f64 (on_platform P) 1 1) _ active Lz) as (l' & El & Q). rewrite El. cbn [obind].
  assert (Ed : @into_dense f64 (on_platform P) (Sparse (MkSparse total [(active, @fone f64 (ScalarF64 P))])) = Ret l').
  { cbn [into_dense sa_acts sa_dim]. unfold write_all. cbn [ofold fst snd]. unfold zeros.
    change (@fzero f64 (on_platform P)) with (@flit f64 (on_platform P) 0 1).
    change (@fone f64 (ScalarF64 P)) with (@flit f64 (on_platform P) 1 1). rewrite El. reflexivity. }
  rewrite Ed. cbn [obind]. f_equal. apply (vec_eqb_refl_f64 P). intros x I. destruct (Q x I) as [->|I'].
  - vm_compute. reflexivity.
  - apply repeat_spec in I'. rewrite I'. vm_compute. reflexivity.
Qed.
