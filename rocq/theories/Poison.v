(** Weights that are infinite or NaN, in binary64. *)
From Coq Require Import List Arith ZArith Lia Permutation Bool.
From Flocq Require Import Core.Core IEEE754.BinarySingleNaN.
From Verif Require Import Base Scalar ScalarF64 HMap HMapFacts NdArray VecFacts Features Spec FeatureFacts
  Optim OptimSpec OptimFacts Lfa LfaSpec LfaFacts F64Facts SumOrder Near64.
Import ListNotations.

(** Two ways for a number to be lost: infinite or NaN; or NaN. *)
Inductive damage := NotFinite | NotANumber.
Definition lost (k : damage) (x : f64) : Prop :=
  match k with NotFinite => b_finite x = false | NotANumber => x = b_nan end.

(** ** Arithmetic never repairs *)

Ltac lost_cases := unfold lost, b_add, b_sub, b_mul, b_div, b_fma, b_nan in *; cbn in *;
  repeat match goal with s : bool |- _ => destruct s end; cbn in *; try discriminate; auto.

Lemma lost_add k x y : lost k x \/ lost k y -> lost k (b_add x y).
Proof. intros [E|E]; destruct k, x, y; lost_cases. Qed.

Lemma lost_sub k x y : lost k x \/ lost k y -> lost k (b_sub x y).
Proof. intros [E|E]; destruct k, x, y; lost_cases. Qed.

Lemma lost_mul k x y : lost k x \/ lost k y -> lost k (b_mul x y).
Proof. intros [E|E]; destruct k, x, y; lost_cases. Qed.

Lemma lost_div k x y : lost k x -> lost k (b_div x y).
Proof. intros E; destruct k, x, y; lost_cases. Qed.

Lemma lost_fma k x y z : lost k x \/ lost k y \/ lost k z -> lost k (b_fma x y z).
Proof. intros [E|[E|E]]; destruct k, x, y, z; lost_cases. Qed.

Lemma lost_dots k : forall l v, dots l v -> forall a b, In (a, b) l -> lost k a \/ lost k b -> lost k v.
Proof.
  intros l v D. induction D as [|a b|l1 l a b x D IH P|l1 l2 l x y D1 IH1 D2 IH2 P]; intros a' b' In' Hl.
  - destruct In'.
  - destruct In' as [E|[]]. injection E as <- <-. apply lost_mul, Hl.
  - apply (Permutation_in _ (Permutation_sym P)) in In'. destruct In' as [E|In'].
    + injection E as <- <-. apply lost_fma. tauto.
    + apply lost_fma. right. right. eapply IH; eauto.
  - apply (Permutation_in _ (Permutation_sym P)) in In'. apply in_app_or in In'. apply lost_add.
    destruct In' as [In'|In']; [left; eapply IH1|right; eapply IH2]; eauto.
Qed.

Section Poison.
  Context (P : Platform) (k : damage).
  Let SP : Scalar f64 := ScalarF64 P.
  Existing Instance SP.

  (** ** Weights stay lost *)

  Definition keeps (w w' : list f64) : Prop :=
    length w' = length w /\
    forall i x, nth_error w i = Some x -> lost k x -> exists x', nth_error w' i = Some x' /\ lost k x'.

  Lemma keeps_refl w : keeps w w.
  Proof. split; eauto. Qed.

  Lemma keeps_trans u v w : keeps u v -> keeps v w -> keeps u w.
  Proof.
    intros [L1 K1] [L2 K2]. split; [congruence|]. intros i x E B. destruct (K1 i x E B) as (y & Y & B'). eauto.
  Qed.

  Lemma keeps_zip f w v w' : (forall x y, lost k x -> lost k (f x y)) -> zip_mut_with f w v = Ret w' -> keeps w w'.
  Proof.
    intros Hf E. split; [eapply zip_mut_with_length; exact E|]. intros i x X B.
    assert (L : i < length w') by (rewrite (zip_mut_with_length _ _ _ _ E); apply nth_error_Some; congruence).
    unfold zip_mut_with in E. destruct (broadcast v (length w)) as [r|]; [|discriminate]. cbn in E. injection E as <-.
    destruct (nth_error_lt _ _ L) as [z Z]. exists z. split; [exact Z|]. rewrite nth_error_map2, X in Z.
    destruct (nth_error r i); [|discriminate]. injection Z as <-. auto.
  Qed.

  Lemma keeps_vupd f w i w' : (forall x, lost k x -> lost k (f x)) -> vupd w i f = Ret w' -> keeps w w'.
  Proof.
    intros Hf E. destruct (le_lt_dec (length w) i) as [G|L]; [rewrite (vupd_ge f w i G) in E; discriminate|].
    destruct (vupd_lt f w i L) as (w2 & E2 & L2 & N). rewrite E in E2. injection E2 as <-. split; [exact L2|].
    intros j x X B. destruct (Nat.eq_dec j i) as [->|Ne].
    - exists (f x). split; [|auto]. rewrite N, Nat.eqb_refl, X. reflexivity.
    - exists x. split; [|auto]. rewrite N. destruct (Nat.eqb_spec j i); [contradiction|exact X].
  Qed.

  Lemma keeps_ofold {A} (f : list f64 -> A -> outcome (list f64)) : (forall w a w', f w a = Ret w' -> keeps w w') ->
    forall l w w', ofold f l w = Ret w' -> keeps w w'.
  Proof.
    intros Hf l. induction l as [|a l IH]; intros w w' E; cbn in E; [injection E as <-; apply keeps_refl|].
    destruct (f w a) as [w1|] eqn:E1; [|discriminate]. eapply keeps_trans; [eapply Hf, E1|eapply IH, E].
  Qed.

  Lemma keeps_scaled_addto phi a w w' : scaled_addto phi a w = Ret w' -> keeps w w'.
  Proof.
    destruct phi as [da|[d m]]; cbn; intros E.
    - eapply keeps_zip; [|exact E]. intros x y B. apply lost_add. auto.
    - eapply keeps_ofold; [|exact E]. intros u kv u' Eu. eapply keeps_vupd; [|exact Eu]. intros x B. apply lost_add. auto.
  Qed.

  Lemma keeps_adagrad_dense lr sf : forall da w ss, keeps w (fst (adagrad_dense lr sf da w ss)).
  Proof.
    induction da as [|a da IH]; intros [|x w] [|q ss]; try apply keeps_refl. cbn [adagrad_dense].
    specialize (IH w ss). destruct (adagrad_dense lr sf da w ss) as [w2 ss2]. cbn [fst] in *. destruct IH as [L K].
    split; [cbn; congruence|]. intros [|i] y Y B; cbn in Y |- *.
    - injection Y as <-. eexists. split; [reflexivity|]. apply lost_add. auto.
    - eauto.
  Qed.

  Lemma keeps_adagrad_sparse lr sf m : forall ss i w w' ss', adagrad_sparse lr sf m i ss w = Ret (w', ss') -> keeps w w'.
  Proof.
    induction ss as [|q ss IH]; intros i w w' ss' E; cbn [adagrad_sparse] in E; [injection E as <- <-; apply keeps_refl|].
    destruct (vupd w i _) as [w1|] eqn:E1; cbn [obind] in E; [|discriminate].
    destruct (adagrad_sparse lr sf m (S i) ss w1) as [[w2 ss2]|] eqn:E2; cbn [obind] in E; [|discriminate]. injection E as <- _.
    eapply keeps_trans; [|eapply IH, E2]. eapply keeps_vupd; [|exact E1]. intros x B. apply lost_add. auto.
  Qed.

  Lemma keeps_coords {A} (f : list f64 * list f64 * list f64 -> A -> outcome (list f64 * list f64 * list f64)) :
    (forall st a st', f st a = Ret st' -> keeps (snd st) (snd st')) ->
    forall l st st', ofold f l st = Ret st' -> keeps (snd st) (snd st').
  Proof.
    intros Hf l. induction l as [|a l IH]; intros st st' E; cbn in E; [injection E as <-; apply keeps_refl|].
    destruct (f st a) as [s1|] eqn:E1; [|discriminate]. eapply keeps_trans; [eapply Hf, E1|eapply IH, E].
  Qed.

  Lemma keeps_adam decay lr b1 b2 p1 p2 sf st ia st' : adam_coord decay lr b1 b2 p1 p2 sf st ia = Ret st' -> keeps (snd st) (snd st').
  Proof.
    destruct st as [[m1 m2] w], ia as [i a]. unfold adam_coord. intros E.
    destruct (vget m1 i); cbn [obind] in E; [|discriminate]. destruct (vget m2 i); cbn [obind] in E; [|discriminate].
    destruct (vset m1 i _); cbn [obind] in E; [|discriminate]. destruct (vset m2 i _); cbn [obind] in E; [|discriminate].
    destruct (vupd w i _) as [w1|] eqn:E1; cbn [obind] in E; [|discriminate]. injection E as <-. cbn [snd].
    eapply keeps_vupd; [|exact E1]. intros x B. apply lost_add. auto.
  Qed.

  Lemma keeps_adamax decay lr b1 b2 p1 sf st ia st' : adamax_coord decay lr b1 b2 p1 sf st ia = Ret st' -> keeps (snd st) (snd st').
  Proof.
    destruct st as [[m1 m2] w], ia as [i a]. unfold adamax_coord. intros E.
    destruct (vget m1 i); cbn [obind] in E; [|discriminate]. destruct (vget m2 i); cbn [obind] in E; [|discriminate].
    destruct (vset m1 i _); cbn [obind] in E; [|discriminate]. destruct (vset m2 i _); cbn [obind] in E; [|discriminate].
    destruct (vupd w i _) as [w1|] eqn:E1; cbn [obind] in E; [|discriminate]. injection E as <-. cbn [snd].
    eapply keeps_vupd; [|exact E1]. intros x B. apply lost_add. auto.
  Qed.

  Lemma keeps_scaled_add a w v w' : scaled_add a w v = Ret w' -> keeps w w'.
  Proof. intros E. eapply keeps_zip; [|exact E]. intros x y B. apply lost_add. auto. Qed.

  Theorem keeps_step o w phi sf o' w' r : lib_step_scaled o w phi sf = Ret (o', w', r) -> keeps w w'.
  Proof.
    destruct o as [lr|lr|s|s|s|s|s]; cbn [lib_step_scaled o_step_scaled SGD ISGD SGDMomentum NAG Adagrad Adam AdaMax]; unfold lift_step; intros E.
    - unfold sgd_step_scaled in E. destruct (scaled_addto _ _ _) as [w1|] eqn:E1; cbn [obind] in E; [|discriminate]. injection E as <- <- <-.
      eapply keeps_scaled_addto, E1.
    - unfold isgd_step_scaled in E. destruct (scaled_addto _ _ _) as [w1|] eqn:E1; cbn [obind] in E; [|discriminate]. injection E as <- <- <-.
      eapply keeps_scaled_addto, E1.
    - unfold momentum_step_scaled in E. destruct (velocity_update _ _ _ _) as [v|]; cbn [obind] in E; [|discriminate].
      destruct (scaled_add _ _ _) as [w1|] eqn:E1; cbn [obind] in E; [|discriminate]. injection E as <- <- <-. eapply keeps_scaled_add, E1.
    - unfold nag_step_scaled in E. destruct (velocity_update _ _ _ _) as [v|]; cbn [obind] in E; [|discriminate].
      destruct (scaled_add _ _ _) as [w1|] eqn:E1; cbn [obind] in E; [|discriminate].
      destruct (scaled_addto _ _ _) as [w2|] eqn:E2; cbn [obind] in E; [|discriminate]. injection E as <- <- <-.
      eapply keeps_trans; [eapply keeps_scaled_add, E1|eapply keeps_scaled_addto, E2].
    - unfold adagrad_step_scaled in E. destruct phi as [da|[d m]]; cbn [obind sa_acts] in E.
      + pose proof (keeps_adagrad_dense (ag_lr s) sf da w (ag_acc s)) as K. destruct (adagrad_dense _ _ _ _ _). cbn [fst] in K.
        injection E as <- <- <-. exact K.
      + destruct (adagrad_sparse _ _ _ _ _ _) as [[w1 q]|] eqn:E1; cbn [obind] in E; [|discriminate]. injection E as <- <- <-.
        eapply keeps_adagrad_sparse, E1.
    - unfold adam_step_scaled in E. destruct phi as [da|[d m]]; cbn [sa_acts] in E;
        destruct (ofold _ _ _) as [[[m1 m2] w1]|] eqn:E1; cbn [obind] in E; try discriminate; injection E as <- <- <-;
        apply (keeps_coords _ (keeps_adam _ _ _ _ _ _ _)) in E1; exact E1.
    - unfold adamax_step_scaled in E. destruct phi as [da|[d m]]; cbn [sa_acts] in E;
        destruct (ofold _ _ _) as [[[m1 m2] w1]|] eqn:E1; cbn [obind] in E; try discriminate; injection E as <- <- <-;
        apply (keeps_coords _ (keeps_adamax _ _ _ _ _ _)) in E1; exact E1.
  Qed.

  Theorem keeps_run {I} cs : forall (a a' : ScalarLFA f64 I (lib_opt f64)), s_run LibOptimiser cs a = Ret a' ->
    lfa_basis a' = lfa_basis a /\ keeps (lfa_weights a) (lfa_weights a').
  Proof.
    induction cs as [|c cs IH]; intros a a' E; unfold s_run in *; cbn [ofold] in E; [injection E as <-; split; [reflexivity|apply keeps_refl]|].
    destruct (s_do LibOptimiser a c) as [a1|] eqn:E1; [|discriminate]. cbn [obind] in E. destruct (IH a1 a' E) as [B K].
    assert (H1 : lfa_basis a1 = lfa_basis a /\ keeps (lfa_weights a) (lfa_weights a1)).
    { destruct a as [b w o]. destruct c as [x|x e|x f]; cbn [s_do] in E1.
      - destruct (s_evaluate _ x); cbn in E1; [|discriminate]. injection E1 as <-. split; [reflexivity|apply keeps_refl].
      - unfold s_update, omap in E1. cbn [lfa_basis lfa_weights lfa_optimiser] in E1.
        destruct (b_project b x) as [[phi|e']|]; cbn [obind] in E1; try discriminate; [|injection E1 as <-; split; [reflexivity|apply keeps_refl]].
        cbn [LibOptimiser o_step_scaled] in E1. destruct (lib_step_scaled o w phi e) as [[[o1 w1] r]|] eqn:St; cbn [obind] in E1; [|discriminate].
        injection E1 as <-. split; [reflexivity|]. eapply keeps_step, St.
      - unfold s_update_with, omap in E1. cbn [lfa_basis lfa_weights lfa_optimiser] in E1.
        destruct (b_project b x) as [[phi|e']|]; cbn [obind] in E1; try discriminate; [|injection E1 as <-; split; [reflexivity|apply keeps_refl]].
        destruct (dot phi w) as [v|]; cbn [obind] in E1; [|discriminate].
        cbn [LibOptimiser o_step_scaled] in E1. destruct (lib_step_scaled o w phi (f phi v)) as [[[o1 w1] r]|] eqn:St; cbn [obind] in E1; [|discriminate].
        injection E1 as <-. split; [reflexivity|]. eapply keeps_step, St. }
    destruct H1 as [B1 K1]. split; [congruence|]. eapply keeps_trans; eauto.
  Qed.

  (** ** Predictions from lost weights are lost *)

  Lemma lost_dot_sparse : forall m w acc v, ofold (fun acc kv => let* x := vget w (fst kv) in Ret (fadd acc (fmul x (snd kv)))) m acc = Ret v ->
    (lost k acc \/ exists i a x, In (i, a) m /\ nth_error w i = Some x /\ lost k x) -> lost k v.
  Proof.
    induction m as [|[j c] m IH]; intros w acc v E H; cbn [ofold] in E.
    - injection E as <-. destruct H as [H|(i & a & x & [] & _)]. exact H.
    - cbn [fst snd] in E. destruct (vget w j) as [y|] eqn:G; cbn [obind] in E; [|discriminate]. apply vget_Ret in G.
      eapply IH; [exact E|]. destruct H as [H|(i & a & x & [Eq|In'] & X & B)].
      + left. apply lost_add. auto.
      + injection Eq as <- <-. left. apply lost_add. right. apply lost_mul. left. congruence.
      + right. eauto 7.
  Qed.

  Theorem lost_dot phi w v i x : any_order P -> dot phi w = Ret v -> stored phi i -> nth_error w i = Some x -> lost k x -> lost k v.
  Proof.
    intros [_ AO] E [a St] X B. destruct phi as [da|[d m]]; cbn [dot sa_acts] in E.
    - unfold dot1 in E. destruct (Nat.eqb_spec (length da) (length w)) as [L|]; [|discriminate]. injection E as <-.
      apply (lost_dots k _ _ (AO da w L) a x); [|auto]. apply (nth_error_In _ i).
      clear - St X. cbn in St. revert w i St X. induction da as [|y da IH]; intros [|z w] [|i] St X; cbn in *; try discriminate; [congruence|eauto].
    - eapply lost_dot_sparse; [exact E|]. right. exists i, a, x. auto.
  Qed.

  (** ** A lost error loses every weight in use *)

  Definition hits (o : lib_opt f64) (phi : Features f64) (i : nat) : Prop :=
    match o with LAdagrad _ => True | _ => stored phi i end.

  Theorem lost_step o w phi sf n : sized n phi -> length w = n -> opt_sized n o -> lost k sf ->
    exists o' w', lib_step_scaled o w phi sf = Ret (o', w', Ok tt) /\ length w' = n /\ opt_sized n o' /\
      forall i, i < n -> hits o phi i -> exists x', nth_error w' i = Some x' /\ lost k x'.
  Proof.
    intros Z L OS B. destruct (lib_step_scaled_ok n o w phi sf Z L OS) as (o' & w' & E & L' & OS').
    exists o', w'. splits; auto. intros i Li Hi. subst n.
    destruct (nth_error_lt w i Li) as [x X].
    assert (G : forall a b c, lost k c -> lost k (b_mul (b_mul a b) c) /\ lost k (b_mul a c) /\ lost k (b_mul c a) /\ lost k (b_add a c)).
    { intros a b c Bc. repeat split; try (apply lost_mul; auto). apply lost_add; auto. }
    destruct o as [lr|lr|s|s|s|s|s]; cbn [lib_step_scaled o_step_scaled SGD ISGD SGDMomentum NAG Adagrad Adam AdaMax] in E; cbn [hits opt_sized] in Hi, OS.
    - unfold sgd_step_scaled in E. destruct (sized_fits _ phi w Z eq_refl) as [K Fi].
      destruct (scaled_addto_spec phi (fmul lr sf) w K Fi) as (w1 & E1 & _ & N). rewrite E1 in E. cbn in E. injection E as <- <-.
      destruct Hi as [a St]. destruct (N i x X) as [A _]. exists (fadd x (fmul (fmul lr sf) a)). split; [apply A, St|].
      apply lost_add. right. apply lost_mul. left. apply lost_mul. auto.
    - unfold isgd_step_scaled in E. destruct (sized_fits _ phi w Z eq_refl) as [K Fi].
      destruct (scaled_addto_spec phi (fmul (isgd_compute_lr lr phi) sf) w K Fi) as (w1 & E1 & _ & N). rewrite E1 in E. cbn in E. injection E as <- <-.
      destruct Hi as [a St]. destruct (N i x X) as [A _]. eexists. split; [apply A, St|].
      apply lost_add. right. apply lost_mul. left. apply lost_mul. auto.
    - destruct (nth_error_lt (mo_velocity s) i) as [y Y]; [rewrite OS; exact Li|].
      destruct (momentum_step_spec s w phi sf Z OS) as (v1 & w1 & E1 & _ & _ & N). rewrite E1 in E. cbn in E. injection E as <- <-.
      destruct (N i x y X Y) as [_ Nw]. eexists. split; [exact Nw|]. apply lost_add. right. apply lost_mul. right.
      destruct Hi as [a St]. destruct phi as [da|[d m]]; cbn [new_velocity sa_acts].
      + apply lost_add. right. apply lost_mul. auto.
      + cbn in St. apply (hm_In_get m) in St; [|apply (sized_keys _ _ _ Z)]. rewrite St. apply lost_add. right. apply lost_mul. auto.
    - destruct (nth_error_lt (mo_velocity s) i) as [y Y]; [rewrite OS; exact Li|].
      destruct (nag_step_spec s w phi sf Z OS) as (v1 & w1 & E1 & _ & _ & N). rewrite E1 in E. cbn in E. injection E as <- <-.
      destruct (N i x y X Y) as [_ [Nw _]]. destruct Hi as [a St]. eexists. split; [apply Nw, St|]. apply lost_add. left. apply lost_add. right. apply lost_mul. right.
      destruct phi as [da|[d m]]; cbn [new_velocity sa_acts].
      + apply lost_add. right. apply lost_mul. auto.
      + cbn in St. apply (hm_In_get m) in St; [|apply (sized_keys _ _ _ Z)]. rewrite St. apply lost_add. right. apply lost_mul. auto.
    - destruct (expands_exists phi (proj1 (proj1 Z))) as [l Xp]. destruct (nth_error_lt (ag_acc s) i) as [q Q]; [rewrite OS; exact Li|].
      destruct (nth_error_lt l i) as [a A]; [destruct Xp as [-> _]; rewrite (proj2 Z); exact Li|].
      destruct (adagrad_step_spec s w phi l sf Z Xp OS) as (v1 & w1 & E1 & _ & _ & N). rewrite E1 in E. cbn in E. injection E as <- <-.
      destruct (N i a x q A X Q) as [_ Nw]. eexists. split; [exact Nw|]. apply lost_add. right. apply lost_div, lost_mul. right. apply lost_mul. auto.
    - destruct OS as [O1 O2]. destruct (nth_error_lt (ad_exp_avg s) i) as [x1 X1]; [rewrite O1; exact Li|].
      destruct (nth_error_lt (ad_exp_avg_sq s) i) as [x2 X2]; [rewrite O2; exact Li|].
      destruct (adam_step_spec s w phi sf Z O1 O2) as (m1 & m2 & w1 & E1 & _ & _ & _ & N). rewrite E1 in E. cbn in E. injection E as <- <-.
      specialize (N i x1 x2 x X1 X2 X). destruct Hi as [a St]. rewrite (proj2 (get_stores phi i a (proj1 (proj1 Z))) St) in N.
      destruct N as (_ & _ & Nw). eexists. split; [exact Nw|]. apply lost_add. right. apply lost_div, lost_mul. right. apply lost_div.
      apply lost_add. right. apply lost_mul. right. apply lost_mul. auto.
    - destruct OS as [O1 O2]. destruct (nth_error_lt (am_exp_avg s) i) as [x1 X1]; [rewrite O1; exact Li|].
      destruct (nth_error_lt (am_exp_inf s) i) as [x2 X2]; [rewrite O2; exact Li|].
      destruct (adamax_step_spec s w phi sf Z O1 O2) as (m1 & m2 & w1 & E1 & _ & _ & _ & N). rewrite E1 in E. cbn in E. injection E as <- <-.
      specialize (N i x1 x2 x X1 X2 X). destruct Hi as [a St]. rewrite (proj2 (get_stores phi i a (proj1 (proj1 Z))) St) in N.
      destruct N as (_ & _ & Nw). eexists. split; [exact Nw|]. apply lost_add. right. apply lost_div, lost_mul. right. apply lost_div.
      apply lost_add. right. apply lost_mul. right. apply lost_mul. auto.
  Qed.

  (** ** Calls *)

  Lemma lost_update {I} (b : Basis f64 I) n w o x phi e : b_project b x = Ret (Ok phi) -> sized n phi -> length w = n -> opt_sized n o ->
    lost k e -> exists w' o', s_do LibOptimiser (MkLFA b w o) (SUpdate x e) = Ret (MkLFA b w' o') /\ length w' = n /\ opt_sized n o' /\
      forall i, i < n -> hits o phi i -> exists x', nth_error w' i = Some x' /\ lost k x'.
  Proof.
    intros Pr Z L OS B. destruct (lost_step o w phi e n Z L OS B) as (o' & w' & E & L' & OS' & H). exists w', o'. splits; auto.
    cbn [s_do]. unfold s_update, omap. cbn [lfa_basis lfa_weights lfa_optimiser]. rewrite Pr. cbn [obind LibOptimiser o_step_scaled]. rewrite E. reflexivity.
  Qed.

  Lemma dot_total phi w n : sized n phi -> length w = n -> exists v, dot phi w = Ret v.
  Proof.
    intros Z L. destruct phi as [da|[d m]]; cbn [dot].
    - unfold dot1. rewrite (sized_dense _ _ Z), L, Nat.eqb_refl. eauto.
    - apply sized_keys in Z. destruct Z as [_ B]. unfold dot_sparse. cbn [sa_acts]. clear - B L. generalize (fzero : f64).
      assert (B' : forall i a, In (i, a) m -> i < length w). { intros i a In'. rewrite L. apply B. apply (in_map fst) in In'. exact In'. }
      clear B. induction m as [|[j c] m IH]; intros acc; cbn [ofold]; [eauto|]. cbn [fst snd].
      destruct (vget_lt w j) as (y & G & _); [eapply B'; left; reflexivity|]. rewrite G. cbn [obind]. apply IH. intros i a In'. eapply B'. right. exact In'.
  Qed.

  Lemma lost_fit {I} (b : Basis f64 I) n w o x phi y : any_order P -> b_project b x = Ret (Ok phi) -> sized n phi -> length w = n -> opt_sized n o ->
    (lost k y \/ exists i v, stored phi i /\ nth_error w i = Some v /\ lost k v) ->
    exists w' o', s_do LibOptimiser (MkLFA b w o) (SUpdateWith x (fun _ v => fsub y v)) = Ret (MkLFA b w' o') /\ length w' = n /\ opt_sized n o' /\
      forall i, i < n -> hits o phi i -> exists x', nth_error w' i = Some x' /\ lost k x'.
  Proof.
    intros AO Pr Z L OS H. destruct (dot_total phi w n Z L) as [v V].
    assert (B : lost k (fsub y v)).
    { apply lost_sub. destruct H as [H|(i & q & St & Q & Bq)]; [auto|]. right. eapply lost_dot; eauto. }
    destruct (lost_step o w phi _ n Z L OS B) as (o' & w' & E & L' & OS' & Hh). exists w', o'. splits; auto.
    cbn [s_do]. unfold s_update_with, omap. cbn [lfa_basis lfa_weights lfa_optimiser]. rewrite Pr. cbn [obind]. rewrite V. cbn [obind LibOptimiser o_step_scaled]. rewrite E. reflexivity.
  Qed.

  Lemma lost_evaluate {I} (a : ScalarLFA f64 I (lib_opt f64)) x phi i q r : any_order P ->
    b_project (lfa_basis a) x = Ret (Ok phi) -> stored phi i -> nth_error (lfa_weights a) i = Some q -> lost k q ->
    s_evaluate a x = Ret r -> exists v, r = Ok v /\ lost k v.
  Proof.
    intros AO Pr St Q B E. unfold s_evaluate in E. rewrite Pr in E. cbn [obind rmap] in E.
    destruct (dot phi (lfa_weights a)) as [v|] eqn:V; cbn in E; [|discriminate]. injection E as <-. exists v. split; [reflexivity|]. eapply lost_dot; eauto.
  Qed.

  Theorem lost_for_ever {I} (b : Basis f64 I) n w o x phi e cs a : any_order P -> b_project b x = Ret (Ok phi) -> sized n phi -> length w = n -> opt_sized n o ->
    lost k e -> s_run LibOptimiser (SUpdate x e :: cs) (MkLFA b w o) = Ret a ->
    forall z psi i r, b_project b z = Ret (Ok psi) -> sized n psi -> stored psi i -> hits o phi i -> s_evaluate a z = Ret r ->
      exists v, r = Ok v /\ lost k v.
  Proof.
    intros AO Pr Z L OS B Ru z psi i r Pz Zz St Hi Ev.
    destruct (lost_update b n w o x phi e Pr Z L OS B) as (w' & o' & E & L' & OS' & Hh).
    unfold s_run in Ru. cbn [ofold] in Ru. rewrite E in Ru. cbn [obind] in Ru.
    destruct (keeps_run cs _ _ Ru) as [Bs [_ K]]. cbn [lfa_basis lfa_weights] in Bs, K.
    assert (Li : i < n) by (rewrite <- (proj2 Zz); apply (proj2 (proj1 Zz)), St).
    destruct (Hh i Li Hi) as (q & Q & Bq). destruct (K i q Q Bq) as (q' & Q' & Bq').
    eapply lost_evaluate; eauto. rewrite Bs. exact Pz.
  Qed.

  (** Weights not in use: the error does not reach them, except with Adagrad. *)
  Theorem contained o w phi sf sf' n : sized n phi -> length w = n -> opt_sized n o -> (forall s, o <> LAdagrad s) ->
    exists o1 w1 o2 w2, lib_step_scaled o w phi sf = Ret (o1, w1, Ok tt) /\ lib_step_scaled o w phi sf' = Ret (o2, w2, Ok tt) /\
      forall i, ~ stored phi i -> nth_error w1 i = nth_error w2 i.
  Proof.
    intros Z L OS Na. destruct (lib_step_scaled_ok n o w phi sf Z L OS) as (o1 & w1 & E1 & L1 & _).
    destruct (lib_step_scaled_ok n o w phi sf' Z L OS) as (o2 & w2 & E2 & L2 & _). exists o1, w1, o2, w2. splits; auto. intros i Ns.
    destruct (le_lt_dec n i) as [G|Li]; [rewrite !(proj2 (nth_error_None _ i)); auto; lia|]. subst n. destruct (nth_error_lt w i Li) as [x X].
    assert (Ng : get phi i = None).
    { destruct (get phi i) as [a|] eqn:Ge; [|reflexivity]. exfalso. apply Ns. exists a. apply (get_stores phi i a (proj1 (proj1 Z))), Ge. }
    assert (Nv : forall m y, new_velocity m sf phi i y = new_velocity m sf' phi i y).
    { intros m y. destruct phi as [da|[d mm]]; cbn [new_velocity].
      - exfalso. apply Ns. destruct (nth_error_lt da i) as [a A]; [rewrite (sized_dense _ _ Z); exact Li|]. exists a. exact A.
      - cbn in Ng |- *. rewrite Ng. reflexivity. }
    destruct o as [lr|lr|s|s|s|s|s]; cbn [lib_step_scaled o_step_scaled SGD ISGD SGDMomentum NAG Adagrad Adam AdaMax opt_sized] in E1, E2, OS.
    - destruct (sized_fits _ phi w Z eq_refl) as [K Fi]. unfold sgd_step_scaled in E1, E2.
      destruct (scaled_addto_spec phi (fmul lr sf) w K Fi) as (u1 & F1 & _ & N1). destruct (scaled_addto_spec phi (fmul lr sf') w K Fi) as (u2 & F2 & _ & N2).
      rewrite F1 in E1. rewrite F2 in E2. cbn in E1, E2. injection E1 as <- <-. injection E2 as <- <-.
      rewrite (proj2 (N1 i x X) Ns), (proj2 (N2 i x X) Ns). reflexivity.
    - destruct (sized_fits _ phi w Z eq_refl) as [K Fi]. unfold isgd_step_scaled in E1, E2.
      destruct (scaled_addto_spec phi (fmul (isgd_compute_lr lr phi) sf) w K Fi) as (u1 & F1 & _ & N1). destruct (scaled_addto_spec phi (fmul (isgd_compute_lr lr phi) sf') w K Fi) as (u2 & F2 & _ & N2).
      rewrite F1 in E1. rewrite F2 in E2. cbn in E1, E2. injection E1 as <- <-. injection E2 as <- <-.
      rewrite (proj2 (N1 i x X) Ns), (proj2 (N2 i x X) Ns). reflexivity.
    - destruct (nth_error_lt (mo_velocity s) i) as [y Y]; [rewrite OS; exact Li|].
      destruct (momentum_step_spec s w phi sf Z OS) as (v1 & u1 & F1 & _ & _ & N1). destruct (momentum_step_spec s w phi sf' Z OS) as (v2 & u2 & F2 & _ & _ & N2).
      rewrite F1 in E1. rewrite F2 in E2. cbn in E1, E2. injection E1 as <- <-. injection E2 as <- <-.
      rewrite (proj2 (N1 i x y X Y)), (proj2 (N2 i x y X Y)), Nv. reflexivity.
    - destruct (nth_error_lt (mo_velocity s) i) as [y Y]; [rewrite OS; exact Li|].
      destruct (nag_step_spec s w phi sf Z OS) as (v1 & u1 & F1 & _ & _ & N1). destruct (nag_step_spec s w phi sf' Z OS) as (v2 & u2 & F2 & _ & _ & N2).
      rewrite F1 in E1. rewrite F2 in E2. cbn in E1, E2. injection E1 as <- <-. injection E2 as <- <-.
      rewrite (proj2 (proj2 (N1 i x y X Y)) Ns), (proj2 (proj2 (N2 i x y X Y)) Ns), Nv. reflexivity.
    - exfalso. eapply Na. reflexivity.
    - destruct OS as [O1 O2]. destruct (nth_error_lt (ad_exp_avg s) i) as [x1 X1]; [rewrite O1; exact Li|].
      destruct (nth_error_lt (ad_exp_avg_sq s) i) as [x2 X2]; [rewrite O2; exact Li|].
      destruct (adam_step_spec s w phi sf Z O1 O2) as (a1 & b1 & u1 & F1 & _ & _ & _ & N1). destruct (adam_step_spec s w phi sf' Z O1 O2) as (a2 & b2 & u2 & F2 & _ & _ & _ & N2).
      rewrite F1 in E1. rewrite F2 in E2. cbn in E1, E2. injection E1 as <- <-. injection E2 as <- <-.
      specialize (N1 i x1 x2 x X1 X2 X). specialize (N2 i x1 x2 x X1 X2 X). rewrite Ng in N1, N2. rewrite (proj2 (proj2 N1)), (proj2 (proj2 N2)). reflexivity.
    - destruct OS as [O1 O2]. destruct (nth_error_lt (am_exp_avg s) i) as [x1 X1]; [rewrite O1; exact Li|].
      destruct (nth_error_lt (am_exp_inf s) i) as [x2 X2]; [rewrite O2; exact Li|].
      destruct (adamax_step_spec s w phi sf Z O1 O2) as (a1 & b1 & u1 & F1 & _ & _ & _ & N1). destruct (adamax_step_spec s w phi sf' Z O1 O2) as (a2 & b2 & u2 & F2 & _ & _ & _ & N2).
      rewrite F1 in E1. rewrite F2 in E2. cbn in E1, E2. injection E1 as <- <-. injection E2 as <- <-.
      specialize (N1 i x1 x2 x X1 X2 X). specialize (N2 i x1 x2 x X1 X2 X). rewrite Ng in N1, N2. rewrite (proj2 (proj2 N1)), (proj2 (proj2 N2)). reflexivity.
  Qed.
End Poison.

(** ** Optimisers shared by several outputs *)

Section Shared.
  Context (P : Platform) (k : damage).
  Let SP : Scalar f64 := ScalarF64 P.
  Existing Instance SP.

  (** What an optimiser accumulates from the gradients. *)
  Definition memory (o : lib_opt f64) : list f64 :=
    match o with
    | LSGD _ | LISGD _ => []
    | LMomentum s | LNAG s => mo_velocity s
    | LAdagrad s => ag_acc s
    | LAdam s => ad_exp_avg s
    | LAdaMax s => am_exp_avg s
    end.

  Lemma keeps_map f w : (forall x, lost k x -> lost k (f x)) -> keeps k w (map f w).
  Proof. intros Hf. split; [apply map_length|]. intros i x X B. exists (f x). split; [|auto]. rewrite nth_error_map', X. reflexivity. Qed.

  Lemma keeps_vset w i x v w' : nth_error w i = Some x -> (lost k x -> lost k v) -> vset w i v = Ret w' -> keeps k w w'.
  Proof.
    intros X Hv E. destruct (vset_lt v w i) as (w2 & E2 & L2 & N); [apply nth_error_Some; congruence|]. rewrite E in E2. injection E2 as <-.
    split; [exact L2|]. intros j y Y B. rewrite N. destruct (Nat.eqb_spec j i) as [->|]; [|eauto].
    exists v. split; [reflexivity|]. apply Hv. congruence.
  Qed.

  Lemma keeps_velocity m v phi sf v' : velocity_update m v phi sf = Ret v' -> keeps k v v'.
  Proof.
    destruct phi as [da|[d mm]]; cbn [velocity_update sa_acts]; intros E.
    - eapply keeps_zip; [|exact E]. intros x y B. apply lost_add. left. apply lost_mul. auto.
    - eapply keeps_trans; [apply (keeps_map (fun x => fmul x m)); intros x B; apply lost_mul; auto|].
      eapply keeps_ofold; [|exact E]. intros u kv u' Eu. eapply keeps_vupd; [|exact Eu]. intros x B. apply lost_add. auto.
  Qed.

  Lemma keeps_acc_dense lr sf : forall da w ss, keeps k ss (snd (adagrad_dense lr sf da w ss)).
  Proof.
    induction da as [|a da IH]; intros [|x w] [|q ss]; try apply keeps_refl. cbn [adagrad_dense].
    specialize (IH w ss). destruct (adagrad_dense lr sf da w ss) as [w2 ss2]. cbn [snd] in *. destruct IH as [L K].
    split; [cbn; congruence|]. intros [|i] y Y B; cbn in Y |- *.
    - injection Y as <-. eexists. split; [reflexivity|]. apply lost_add. auto.
    - eauto.
  Qed.

  Lemma keeps_acc_sparse lr sf m : forall ss i w w' ss', adagrad_sparse lr sf m i ss w = Ret (w', ss') -> keeps k ss ss'.
  Proof.
    induction ss as [|q ss IH]; intros i w w' ss' E; cbn [adagrad_sparse] in E; [injection E as <- <-; apply keeps_refl|].
    destruct (vupd w i _) as [w1|]; cbn [obind] in E; [|discriminate].
    destruct (adagrad_sparse lr sf m (S i) ss w1) as [[w2 ss2]|] eqn:E2; cbn [obind] in E; [|discriminate]. injection E as <- <-.
    destruct (IH _ _ _ _ E2) as [L K]. split; [cbn; congruence|]. intros [|j] y Y B; cbn in Y |- *.
    - injection Y as <-. eexists. split; [reflexivity|]. apply lost_add. auto.
    - eauto.
  Qed.

  Lemma keeps_first {A} (f : list f64 * list f64 * list f64 -> A -> outcome (list f64 * list f64 * list f64)) :
    (forall st a st', f st a = Ret st' -> keeps k (fst (fst st)) (fst (fst st'))) ->
    forall l st st', ofold f l st = Ret st' -> keeps k (fst (fst st)) (fst (fst st')).
  Proof.
    intros Hf l. induction l as [|a l IH]; intros st st' E; cbn in E; [injection E as <-; apply keeps_refl|].
    destruct (f st a) as [s1|] eqn:E1; [|discriminate]. eapply keeps_trans; [eapply Hf, E1|eapply IH, E].
  Qed.

  Lemma keeps_avg_adam decay lr b1 b2 p1 p2 sf st ia st' : adam_coord decay lr b1 b2 p1 p2 sf st ia = Ret st' -> keeps k (fst (fst st)) (fst (fst st')).
  Proof.
    destruct st as [[m1 m2] w], ia as [i a]. unfold adam_coord. intros E.
    destruct (vget m1 i) as [x1|] eqn:G; cbn [obind] in E; [|discriminate]. destruct (vget m2 i); cbn [obind] in E; [|discriminate].
    destruct (vset m1 i _) as [m1'|] eqn:E1; cbn [obind] in E; [|discriminate]. destruct (vset m2 i _); cbn [obind] in E; [|discriminate].
    destruct (vupd w i _) as [w1|]; cbn [obind] in E; [|discriminate]. injection E as <-. cbn [fst].
    apply vget_Ret in G. eapply keeps_vset; [exact G| |exact E1]. intros B. apply lost_add. left. destruct decay; [apply lost_mul|]; auto.
  Qed.

  Lemma keeps_avg_adamax decay lr b1 b2 p1 sf st ia st' : adamax_coord decay lr b1 b2 p1 sf st ia = Ret st' -> keeps k (fst (fst st)) (fst (fst st')).
  Proof.
    destruct st as [[m1 m2] w], ia as [i a]. unfold adamax_coord. intros E.
    destruct (vget m1 i) as [x1|] eqn:G; cbn [obind] in E; [|discriminate]. destruct (vget m2 i); cbn [obind] in E; [|discriminate].
    destruct (vset m1 i _) as [m1'|] eqn:E1; cbn [obind] in E; [|discriminate]. destruct (vset m2 i _); cbn [obind] in E; [|discriminate].
    destruct (vupd w i _) as [w1|]; cbn [obind] in E; [|discriminate]. injection E as <-. cbn [fst].
    apply vget_Ret in G. eapply keeps_vset; [exact G| |exact E1]. intros B. apply lost_add. left. destruct decay; [apply lost_mul|]; auto.
  Qed.

  Theorem keeps_memory o w phi sf o' w' r : lib_step_scaled o w phi sf = Ret (o', w', r) -> keeps k (memory o) (memory o').
  Proof.
    destruct o as [lr|lr|s|s|s|s|s]; cbn [lib_step_scaled o_step_scaled SGD ISGD SGDMomentum NAG Adagrad Adam AdaMax]; unfold lift_step; intros E.
    - unfold sgd_step_scaled in E. destruct (scaled_addto _ _ _); cbn [obind] in E; [|discriminate]. injection E as <- <- <-. apply keeps_refl.
    - unfold isgd_step_scaled in E. destruct (scaled_addto _ _ _); cbn [obind] in E; [|discriminate]. injection E as <- <- <-. apply keeps_refl.
    - unfold momentum_step_scaled in E. destruct (velocity_update _ _ _ _) as [v|] eqn:V; cbn [obind] in E; [|discriminate].
      destruct (scaled_add _ _ _); cbn [obind] in E; [|discriminate]. injection E as <- <- <-. eapply keeps_velocity, V.
    - unfold nag_step_scaled in E. destruct (velocity_update _ _ _ _) as [v|] eqn:V; cbn [obind] in E; [|discriminate].
      destruct (scaled_add _ _ _); cbn [obind] in E; [|discriminate]. destruct (scaled_addto _ _ _); cbn [obind] in E; [|discriminate].
      injection E as <- <- <-. eapply keeps_velocity, V.
    - unfold adagrad_step_scaled in E. destruct phi as [da|[d m]]; cbn [obind sa_acts] in E.
      + pose proof (keeps_acc_dense (ag_lr s) sf da w (ag_acc s)) as K. destruct (adagrad_dense _ _ _ _ _). cbn [snd] in K.
        injection E as <- <- <-. exact K.
      + destruct (adagrad_sparse _ _ _ _ _ _) as [[w1 q]|] eqn:E1; cbn [obind] in E; [|discriminate]. injection E as <- <- <-.
        eapply keeps_acc_sparse, E1.
    - unfold adam_step_scaled in E. destruct phi as [da|[d m]]; cbn [sa_acts] in E;
        destruct (ofold _ _ _) as [[[m1 m2] w1]|] eqn:E1; cbn [obind] in E; try discriminate; injection E as <- <- <-;
        apply (keeps_first _ (keeps_avg_adam _ _ _ _ _ _ _)) in E1; [exact E1|].
      eapply keeps_trans; [|exact E1]. apply (keeps_map (fun x => fmul x (ad_beta1 s))). intros x B. apply lost_mul. auto.
    - unfold adamax_step_scaled in E. destruct phi as [da|[d m]]; cbn [sa_acts] in E;
        destruct (ofold _ _ _) as [[[m1 m2] w1]|] eqn:E1; cbn [obind] in E; try discriminate; injection E as <- <- <-;
        apply (keeps_first _ (keeps_avg_adamax _ _ _ _ _ _)) in E1; [exact E1|].
      eapply keeps_trans; [|exact E1]. apply (keeps_map (fun x => fmul x (am_beta1 s))). intros x B. apply lost_mul. auto.
  Qed.

  Lemma keeps_memory_columns phi : forall es j wm o acc o' wm' r, update_columns LibOptimiser phi es j wm o acc = Ret (o', wm', r) ->
    keeps k (memory o) (memory o').
  Proof.
    induction es as [|e es IH]; intros j wm o acc o' wm' r E; cbn [update_columns] in E; [injection E as <- <- <-; apply keeps_refl|].
    destruct (j <? ncols wm); [|injection E as <- <- <-; apply keeps_refl].
    destruct (column wm j) as [c|]; cbn [obind] in E; [|discriminate]. cbn [LibOptimiser o_step_scaled] in E.
    destruct (lib_step_scaled o c phi e) as [[[o1 c1] x]|] eqn:St; cbn [obind] in E; [|discriminate].
    destruct (set_column wm j c1) as [wm1|]; cbn [obind] in E; [|discriminate].
    eapply keeps_trans; [eapply keeps_memory, St|eapply IH, E].
  Qed.

  Lemma keeps_memory_do {I} (v v' : VectorLFA f64 I (lib_opt f64)) c : v_do LibOptimiser v c = Ret v' -> keeps k (memory (lfa_optimiser v)) (memory (lfa_optimiser v')).
  Proof.
    destruct v as [b wm o]. destruct c as [x|x j|x es|x j e|x f]; cbn [v_do]; unfold omap; intros E.
    - destruct (v_evaluate _ x); cbn in E; [|discriminate]. injection E as <-. apply keeps_refl.
    - destruct (v_evaluate_index _ x j); cbn in E; [|discriminate]. injection E as <-. apply keeps_refl.
    - unfold v_update in E. cbn [lfa_basis lfa_weights lfa_optimiser] in E. destruct (b_project b x) as [[phi|er]|]; cbn [obind] in E; [| |discriminate].
      + destruct (update_columns _ _ _ _ _ _ _) as [[[o1 w1] r]|] eqn:U; cbn [obind] in E; [|discriminate]. injection E as <-. eapply keeps_memory_columns, U.
      + injection E as <-. apply keeps_refl.
    - unfold v_update_index in E. cbn [lfa_basis lfa_weights lfa_optimiser] in E. destruct (b_project b x) as [[phi|er]|]; cbn [obind] in E; [| |discriminate].
      + destruct (column wm j) as [c|]; cbn [obind] in E; [|discriminate]. cbn [LibOptimiser o_step_scaled] in E.
        destruct (lib_step_scaled o c phi e) as [[[o1 c1] r]|] eqn:St; cbn [obind] in E; [|discriminate].
        destruct (set_column wm j c1); cbn [obind] in E; [|discriminate]. injection E as <-. eapply keeps_memory, St.
      + injection E as <-. apply keeps_refl.
    - unfold v_update_with in E. cbn [lfa_basis lfa_weights lfa_optimiser] in E. destruct (b_project b x) as [[phi|er]|]; cbn [obind] in E; [| |discriminate].
      + destruct (matmul phi wm); cbn [obind] in E; [|discriminate].
        destruct (update_columns _ _ _ _ _ _ _) as [[[o1 w1] r]|] eqn:U; cbn [obind] in E; [|discriminate]. injection E as <-. eapply keeps_memory_columns, U.
      + injection E as <-. apply keeps_refl.
  Qed.

  Lemma keeps_memory_run {I} cs : forall (v v' : VectorLFA f64 I (lib_opt f64)), v_run LibOptimiser cs v = Ret v' ->
    keeps k (memory (lfa_optimiser v)) (memory (lfa_optimiser v')).
  Proof.
    unfold v_run. induction cs as [|c cs IH]; intros v v' E; cbn [ofold] in E; [injection E as <-; apply keeps_refl|].
    destruct (v_do LibOptimiser v c) as [v1|] eqn:E1; cbn [obind] in E; [|discriminate].
    eapply keeps_trans; [eapply keeps_memory_do, E1|eapply IH, E].
  Qed.
End Shared.

(** Sizes of buffers survive every step that returns. *)
Section Sizes.
  Context {F : Type} `{Scalar F}.

  Lemma vset_len (w : list F) i v w' : vset w i v = Ret w' -> length w' = length w.
  Proof.
    intros E. destruct (le_lt_dec (length w) i) as [G|L]; [rewrite vset_ge in E by exact G; discriminate|].
    destruct (vset_lt v w i L) as (w2 & E2 & L2 & _). congruence.
  Qed.

  Lemma coords_len {A} (f : list F * list F * list F -> A -> outcome (list F * list F * list F)) :
    (forall m u w a m' u' w', f (m, u, w) a = Ret (m', u', w') -> length m' = length m /\ length u' = length u) ->
    forall l m u w m' u' w', ofold f l (m, u, w) = Ret (m', u', w') -> length m' = length m /\ length u' = length u.
  Proof.
    intros Hf l. induction l as [|a l IH]; intros m u w m' u' w' E; cbn in E; [injection E as <- <- <-; auto|].
    destruct (f (m, u, w) a) as [[[m1 u1] w1]|] eqn:E1; [|discriminate]. apply Hf in E1. apply IH in E. intuition congruence.
  Qed.

  Lemma velocity_len m v (phi : Features F) sf v' : velocity_update m v phi sf = Ret v' -> length v' = length v.
  Proof.
    destruct phi as [da|[d mm]]; cbn [velocity_update sa_acts]; intros E; [eapply zip_mut_with_length, E|].
    replace (length v) with (length (mul_assign v m)) by apply map_length. revert E. generalize (mul_assign v m).
    induction mm as [|kv mm IH]; intros u E; cbn in E; [injection E as <-; reflexivity|].
    destruct (vupd u (fst kv) _) as [u1|] eqn:E1; [|discriminate]. apply vupd_Ret in E1. destruct E1 as (_ & L1 & _). rewrite <- L1. apply IH, E.
  Qed.

  Lemma acc_dense_len lr sf : forall (da w ss : list F), length (snd (adagrad_dense lr sf da w ss)) = length ss.
  Proof.
    induction da as [|a da IH]; intros [|x w] [|q ss]; try reflexivity. cbn [adagrad_dense].
    specialize (IH w ss). destruct (adagrad_dense lr sf da w ss). cbn in *. congruence.
  Qed.

  Lemma acc_sparse_len lr sf m : forall (ss : list F) i w w' ss', adagrad_sparse lr sf m i ss w = Ret (w', ss') -> length ss' = length ss.
  Proof.
    induction ss as [|q ss IH]; intros i w w' ss' E; cbn [adagrad_sparse] in E; [injection E as <- <-; reflexivity|].
    destruct (vupd w i _) as [w1|]; cbn [obind] in E; [|discriminate].
    destruct (adagrad_sparse lr sf m (S i) ss w1) as [[w2 ss2]|] eqn:E2; cbn [obind] in E; [|discriminate]. injection E as <- <-.
    cbn. f_equal. eapply IH, E2.
  Qed.

  Theorem step_opt_sized n (o : lib_opt F) w phi sf o' w' r : opt_sized n o -> lib_step_scaled o w phi sf = Ret (o', w', r) -> opt_sized n o'.
  Proof.
    destruct o as [lr|lr|s|s|s|s|s]; cbn [lib_step_scaled o_step_scaled SGD ISGD SGDMomentum NAG Adagrad Adam AdaMax opt_sized]; unfold lift_step; intros OS E.
    - unfold sgd_step_scaled in E. destruct (scaled_addto _ _ _); cbn [obind] in E; [|discriminate]. injection E as <- <- <-. exact Logic.I.
    - unfold isgd_step_scaled in E. destruct (scaled_addto _ _ _); cbn [obind] in E; [|discriminate]. injection E as <- <- <-. exact Logic.I.
    - unfold momentum_step_scaled in E. destruct (velocity_update _ _ _ _) as [v|] eqn:V; cbn [obind] in E; [|discriminate].
      destruct (scaled_add _ _ _); cbn [obind] in E; [|discriminate]. injection E as <- <- <-. cbn. rewrite (velocity_len _ _ _ _ _ V). exact OS.
    - unfold nag_step_scaled in E. destruct (velocity_update _ _ _ _) as [v|] eqn:V; cbn [obind] in E; [|discriminate].
      destruct (scaled_add _ _ _); cbn [obind] in E; [|discriminate]. destruct (scaled_addto _ _ _); cbn [obind] in E; [|discriminate].
      injection E as <- <- <-. cbn. rewrite (velocity_len _ _ _ _ _ V). exact OS.
    - unfold adagrad_step_scaled in E. destruct phi as [da|[d m]]; cbn [obind sa_acts] in E.
      + pose proof (acc_dense_len (ag_lr s) sf da w (ag_acc s)) as K. destruct (adagrad_dense _ _ _ _ _). cbn [snd] in K.
        injection E as <- <- <-. cbn. congruence.
      + destruct (adagrad_sparse _ _ _ _ _ _) as [[w1 q]|] eqn:E1; cbn [obind] in E; [|discriminate]. injection E as <- <- <-.
        cbn. apply acc_sparse_len in E1. congruence.
    - unfold adam_step_scaled in E. assert (C : forall decay lr b1 b2 p1 p2 m u w0 (a : nat * F) m' u' w0', adam_coord decay lr b1 b2 p1 p2 sf (m, u, w0) a = Ret (m', u', w0') -> length m' = length m /\ length u' = length u).
      { clear. intros decay lr b1 b2 p1 p2 m u w0 [i a] m' u' w0' E. unfold adam_coord in E.
        destruct (vget m i); cbn [obind] in E; [|discriminate]. destruct (vget u i); cbn [obind] in E; [|discriminate].
        destruct (vset m i _) eqn:E1; cbn [obind] in E; [|discriminate]. destruct (vset u i _) eqn:E2; cbn [obind] in E; [|discriminate].
        destruct (vupd w0 i _); cbn [obind] in E; [|discriminate]. injection E as <- <- <-. split; eapply vset_len; eassumption. }
      destruct phi as [da|[d m]]; cbn [sa_acts] in E;
        destruct (ofold _ _ _) as [[[m1 m2] w1]|] eqn:E1; cbn [obind] in E; try discriminate; injection E as <- <- <-;
        apply (coords_len _ (C _ _ _ _ _ _)) in E1; unfold mul_assign in E1; rewrite ?map_length in E1; cbn; intuition congruence.
    - unfold adamax_step_scaled in E. assert (C : forall decay lr b1 b2 p1 m u w0 (a : nat * F) m' u' w0', adamax_coord decay lr b1 b2 p1 sf (m, u, w0) a = Ret (m', u', w0') -> length m' = length m /\ length u' = length u).
      { clear. intros decay lr b1 b2 p1 m u w0 [i a] m' u' w0' E. unfold adamax_coord in E.
        destruct (vget m i); cbn [obind] in E; [|discriminate]. destruct (vget u i); cbn [obind] in E; [|discriminate].
        destruct (vset m i _) eqn:E1; cbn [obind] in E; [|discriminate]. destruct (vset u i _) eqn:E2; cbn [obind] in E; [|discriminate].
        destruct (vupd w0 i _); cbn [obind] in E; [|discriminate]. injection E as <- <- <-. split; eapply vset_len; eassumption. }
      destruct phi as [da|[d m]]; cbn [sa_acts] in E;
        destruct (ofold _ _ _) as [[[m1 m2] w1]|] eqn:E1; cbn [obind] in E; try discriminate; injection E as <- <- <-;
        apply (coords_len _ (C _ _ _ _ _)) in E1; unfold mul_assign in E1; rewrite ?map_length in E1; cbn; intuition congruence.
  Qed.

  Lemma columns_opt_sized n phi : forall es j (wm : matrix F) o acc o' wm' r, opt_sized n o ->
    update_columns LibOptimiser phi es j wm o acc = Ret (o', wm', r) -> opt_sized n o'.
  Proof.
    induction es as [|e es IH]; intros j wm o acc o' wm' r OS E; cbn [update_columns] in E; [injection E as <- <- <-; exact OS|].
    destruct (j <? ncols wm); [|injection E as <- <- <-; exact OS].
    destruct (column wm j) as [c|]; cbn [obind] in E; [|discriminate]. cbn [LibOptimiser o_step_scaled] in E.
    destruct (lib_step_scaled o c phi e) as [[[o1 c1] x]|] eqn:St; cbn [obind] in E; [|discriminate].
    destruct (set_column wm j c1) as [wm1|]; cbn [obind] in E; [|discriminate].
    eapply IH; [eapply step_opt_sized; [exact OS|exact St]|exact E].
  Qed.

  Theorem run_opt_sized {I} n cs : forall (v v' : VectorLFA F I (lib_opt F)), opt_sized n (lfa_optimiser v) ->
    v_run LibOptimiser cs v = Ret v' -> opt_sized n (lfa_optimiser v').
  Proof.
    unfold v_run. induction cs as [|c cs IH]; intros v v' OS E; cbn [ofold] in E; [injection E as <-; exact OS|].
    destruct (v_do LibOptimiser v c) as [v1|] eqn:E1; cbn [obind] in E; [|discriminate]. apply (IH v1 v'); [|exact E]. clear E IH.
    destruct v as [b wm o]. cbn [lfa_optimiser] in OS. destruct c as [x|x j|x es|x j e|x f]; cbn [v_do] in E1; unfold omap in E1.
    - destruct (v_evaluate _ x); cbn in E1; [|discriminate]. injection E1 as <-. exact OS.
    - destruct (v_evaluate_index _ x j); cbn in E1; [|discriminate]. injection E1 as <-. exact OS.
    - unfold v_update in E1. cbn [lfa_basis lfa_weights lfa_optimiser] in E1. destruct (b_project b x) as [[phi|er]|]; cbn [obind] in E1; [| |discriminate].
      + destruct (update_columns _ _ _ _ _ _ _) as [[[o1 w1] r]|] eqn:U; cbn [obind] in E1; [|discriminate]. injection E1 as <-. eapply columns_opt_sized; eauto.
      + injection E1 as <-. exact OS.
    - unfold v_update_index in E1. cbn [lfa_basis lfa_weights lfa_optimiser] in E1. destruct (b_project b x) as [[phi|er]|]; cbn [obind] in E1; [| |discriminate].
      + destruct (column wm j) as [c|]; cbn [obind] in E1; [|discriminate]. cbn [LibOptimiser o_step_scaled] in E1.
        destruct (lib_step_scaled o c phi e) as [[[o1 c1] r]|] eqn:St; cbn [obind] in E1; [|discriminate].
        destruct (set_column wm j c1); cbn [obind] in E1; [|discriminate]. injection E1 as <-. eapply step_opt_sized; eauto.
      + injection E1 as <-. exact OS.
    - unfold v_update_with in E1. cbn [lfa_basis lfa_weights lfa_optimiser] in E1. destruct (b_project b x) as [[phi|er]|]; cbn [obind] in E1; [| |discriminate].
      + destruct (matmul phi wm); cbn [obind] in E1; [|discriminate].
        destruct (update_columns _ _ _ _ _ _ _) as [[[o1 w1] r]|] eqn:U; cbn [obind] in E1; [|discriminate]. injection E1 as <-. eapply columns_opt_sized; eauto.
      + injection E1 as <-. exact OS.
  Qed.
End Sizes.

Section NaN.
  Context (P : Platform) (Pw : powers P).
  Let SP : Scalar f64 := ScalarF64 P.
  Existing Instance SP.
  Notation nan := (lost NotANumber).

  Lemma nan_muls x n y : muls x n y -> nan x -> 0 < n -> nan y.
  Proof.
    intros M B. induction M as [| |a b y z M1 IH1 M2 IH2]; intros L; [lia|exact B|].
    apply lost_mul. destruct a; [right; apply IH2|left; apply IH1]; lia.
  Qed.

  Lemma nan_powi x : nan x -> nan (fpowi x 2).
  Proof. intros B. apply (nan_muls x 2 _ (Pw x 2) B). lia. Qed.

  Lemma nan_div_right x y : nan y -> nan (b_div x y).
  Proof. intros ->. destruct x; reflexivity. Qed.

  Lemma nan_sqrt x : nan x -> nan (b_sqrt x).
  Proof. intros ->. reflexivity. Qed.

  Definition remembers (o : lib_opt f64) : Prop := match o with LSGD _ | LISGD _ => False | _ => True end.

  Theorem nan_memory o w phi sf n o' w' r : remembers o -> sized n phi -> length w = n -> opt_sized n o -> nan sf ->
    lib_step_scaled o w phi sf = Ret (o', w', r) ->
    forall i, stored phi i -> exists x, nth_error (memory o') i = Some x /\ nan x.
  Proof.
    intros Rm Z L OS B E i [a St]. assert (Li : i < n) by (rewrite <- (proj2 Z); apply (proj2 (proj1 Z)); exists a; exact St). subst n.
    destruct (nth_error_lt w i Li) as [x X].
    assert (Vl : forall m y, nan (new_velocity m sf phi i y)).
    { intros m y. destruct phi as [da|[d mm]]; cbn [new_velocity sa_acts].
      - apply lost_add. right. apply lost_mul. auto.
      - cbn in St. apply (hm_In_get mm) in St; [|apply (sized_keys _ _ _ Z)]. rewrite St. apply lost_add. right. apply lost_mul. auto. }
    destruct o as [lr|lr|s|s|s|s|s]; try destruct Rm; cbn [lib_step_scaled o_step_scaled SGDMomentum NAG Adagrad Adam AdaMax opt_sized] in E, OS.
    - destruct (nth_error_lt (mo_velocity s) i) as [y Y]; [rewrite OS; exact Li|].
      destruct (momentum_step_spec s w phi sf Z OS) as (v1 & u1 & F1 & _ & _ & N1). rewrite F1 in E. cbn in E. injection E as <- <- <-.
      eexists. split; [exact (proj1 (N1 i x y X Y))|apply Vl].
    - destruct (nth_error_lt (mo_velocity s) i) as [y Y]; [rewrite OS; exact Li|].
      destruct (nag_step_spec s w phi sf Z OS) as (v1 & u1 & F1 & _ & _ & N1). rewrite F1 in E. cbn in E. injection E as <- <- <-.
      eexists. split; [exact (proj1 (N1 i x y X Y))|apply Vl].
    - destruct (expands_exists phi (proj1 (proj1 Z))) as [l Xp]. destruct (nth_error_lt (ag_acc s) i) as [q Q]; [rewrite OS; exact Li|].
      destruct (nth_error_lt l i) as [c C]; [destruct Xp as [-> _]; rewrite (proj2 Z); exact Li|].
      destruct (adagrad_step_spec s w phi l sf Z Xp OS) as (v1 & w1 & F1 & _ & _ & N). rewrite F1 in E. cbn in E. injection E as <- <- <-.
      eexists. split; [exact (proj1 (N i c x q C X Q))|]. apply lost_add. right. apply nan_powi, lost_mul. auto.
    - destruct OS as [O1 O2]. destruct (nth_error_lt (ad_exp_avg s) i) as [x1 X1]; [rewrite O1; exact Li|].
      destruct (nth_error_lt (ad_exp_avg_sq s) i) as [x2 X2]; [rewrite O2; exact Li|].
      destruct (adam_step_spec s w phi sf Z O1 O2) as (m1 & m2 & w1 & F1 & _ & _ & _ & N). rewrite F1 in E. cbn in E. injection E as <- <- <-.
      specialize (N i x1 x2 x X1 X2 X). rewrite (proj2 (get_stores phi i a (proj1 (proj1 Z))) St) in N.
      eexists. split; [exact (proj1 N)|]. apply lost_add. right. apply lost_mul. right. apply lost_mul. auto.
    - destruct OS as [O1 O2]. destruct (nth_error_lt (am_exp_avg s) i) as [x1 X1]; [rewrite O1; exact Li|].
      destruct (nth_error_lt (am_exp_inf s) i) as [x2 X2]; [rewrite O2; exact Li|].
      destruct (adamax_step_spec s w phi sf Z O1 O2) as (m1 & m2 & w1 & F1 & _ & _ & _ & N). rewrite F1 in E. cbn in E. injection E as <- <- <-.
      specialize (N i x1 x2 x X1 X2 X). rewrite (proj2 (get_stores phi i a (proj1 (proj1 Z))) St) in N.
      eexists. split; [exact (proj1 N)|]. apply lost_add. right. apply lost_mul. right. apply lost_mul. auto.
  Qed.

  Theorem nan_recall o w phi sf n o' w' r q i : sized n phi -> length w = n -> opt_sized n o ->
    nth_error (memory o) i = Some q -> nan q -> lib_step_scaled o w phi sf = Ret (o', w', r) ->
    stored phi i -> exists x, nth_error w' i = Some x /\ nan x.
  Proof.
    intros Z L OS Q B E [a St]. assert (Li : i < n) by (rewrite <- (proj2 Z); apply (proj2 (proj1 Z)); exists a; exact St). subst n.
    destruct (nth_error_lt w i Li) as [x X].
    assert (Vl : forall m, nan (new_velocity m sf phi i q)).
    { intros m. destruct phi as [da|[d mm]]; cbn [new_velocity sa_acts].
      - apply lost_add. left. apply lost_mul. auto.
      - destruct (hm_get mm i); [apply lost_add; left|]; apply lost_mul; auto. }
    destruct o as [lr|lr|s|s|s|s|s]; cbn [memory] in Q; try (destruct i; discriminate Q);
      cbn [lib_step_scaled o_step_scaled SGDMomentum NAG Adagrad Adam AdaMax opt_sized] in E, OS.
    - destruct (momentum_step_spec s w phi sf Z OS) as (v1 & u1 & F1 & _ & _ & N1). rewrite F1 in E. cbn in E. injection E as <- <- <-.
      eexists. split; [exact (proj2 (N1 i x q X Q))|]. apply lost_add. right. apply lost_mul. right. apply Vl.
    - destruct (nag_step_spec s w phi sf Z OS) as (v1 & u1 & F1 & _ & _ & N1). rewrite F1 in E. cbn in E. injection E as <- <- <-.
      eexists. split; [exact (proj1 (proj2 (N1 i x q X Q)) a St)|]. apply lost_add. left. apply lost_add. right. apply lost_mul. right. apply Vl.
    - destruct (expands_exists phi (proj1 (proj1 Z))) as [l Xp].
      destruct (nth_error_lt l i) as [c C]; [destruct Xp as [-> _]; rewrite (proj2 Z); exact Li|].
      destruct (adagrad_step_spec s w phi l sf Z Xp OS) as (v1 & w1 & F1 & _ & _ & N). rewrite F1 in E. cbn in E. injection E as <- <- <-.
      eexists. split; [exact (proj2 (N i c x q C X Q))|]. apply lost_add. right. apply nan_div_right, lost_add. left. apply nan_sqrt, lost_add. left. exact B.
    - destruct OS as [O1 O2]. destruct (nth_error_lt (ad_exp_avg_sq s) i) as [x2 X2]; [rewrite O2; exact Li|].
      destruct (adam_step_spec s w phi sf Z O1 O2) as (m1 & m2 & w1 & F1 & _ & _ & _ & N). rewrite F1 in E. cbn in E. injection E as <- <- <-.
      specialize (N i q x2 x Q X2 X). rewrite (proj2 (get_stores phi i a (proj1 (proj1 Z))) St) in N.
      eexists. split; [exact (proj2 (proj2 N))|]. apply lost_add. right. apply lost_div, lost_mul. right. apply lost_div, lost_add. left.
      unfold decayed. destruct (negb (is_sparse phi)); apply lost_mul; auto.
    - destruct OS as [O1 O2]. destruct (nth_error_lt (am_exp_inf s) i) as [x2 X2]; [rewrite O2; exact Li|].
      destruct (adamax_step_spec s w phi sf Z O1 O2) as (m1 & m2 & w1 & F1 & _ & _ & _ & N). rewrite F1 in E. cbn in E. injection E as <- <- <-.
      specialize (N i q x2 x Q X2 X). rewrite (proj2 (get_stores phi i a (proj1 (proj1 Z))) St) in N.
      eexists. split; [exact (proj2 (proj2 N))|]. apply lost_add. right. apply lost_div, lost_mul. right. apply lost_div, lost_add. left.
      unfold decayed. destruct (negb (is_sparse phi)); apply lost_mul; auto.
  Qed.

  (** One NaN error for one output; whatever is called next, the next step of any
      output on common features makes its weights NaN. *)
  Theorem nan_shared {I} (v v1 v2 v3 : VectorLFA f64 I (lib_opt f64)) n x phi j c cs z psi j' c' e r r' :
    remembers (lfa_optimiser v) -> opt_sized n (lfa_optimiser v) -> matrix_ok (lfa_weights v) -> nrows (lfa_weights v) = n ->
    b_project (lfa_basis v) x = Ret (Ok phi) -> sized n phi -> b_project (lfa_basis v) z = Ret (Ok psi) -> sized n psi ->
    column (lfa_weights v) j = Ret c -> v_update_index LibOptimiser v x j b_nan = Ret (v1, r) -> v_run LibOptimiser cs v1 = Ret v2 ->
    v_update_index LibOptimiser v2 z j' e = Ret (v3, r') -> column (lfa_weights v3) j' = Ret c' ->
    forall i, stored phi i -> stored psi i -> nth_error c' i = Some b_nan.
  Proof.
    intros Rm OS OK Nr Px Zx Pz Zz C U1 Ru U2 C' i Si Ti.
    pose proof (v_do_shape LibOptimiser lib_keeps_length v (VUpdateIndex x j b_nan) v1 OK) as Sh1. cbn [v_do] in Sh1. unfold omap in Sh1.
    rewrite U1 in Sh1. destruct (Sh1 eq_refl) as [B1 (OK1 & R1 & _)]. clear Sh1.
    destruct (v_run_shape LibOptimiser lib_keeps_length cs v1 v2 OK1 Ru) as [B2 (OK2 & R2 & _)].
    assert (M1 : opt_sized n (lfa_optimiser v1) /\ exists q, nth_error (memory (lfa_optimiser v1)) i = Some q /\ lost NotANumber q).
    { destruct v as [b wm o]. unfold v_update_index in U1. cbn [lfa_basis lfa_weights lfa_optimiser] in *. rewrite Px, C in U1. cbn [obind LibOptimiser o_step_scaled] in U1.
      destruct (lib_step_scaled o c phi b_nan) as [[[o1 c1] x1]|] eqn:St; cbn [obind] in U1; [|discriminate].
      destruct (set_column wm j c1); cbn [obind] in U1; [|discriminate]. injection U1 as <- <-. cbn [lfa_optimiser with_state].
      split; [eapply step_opt_sized; eauto|]. apply (nan_memory o c phi b_nan n o1 c1 x1); auto; [|reflexivity].
      rewrite <- Nr. apply (column_Ret _ _ _ OK C). }
    destruct M1 as [OS1 (q & Q & Bq)]. pose proof (run_opt_sized n cs v1 v2 OS1 Ru) as OS2.
    destruct (keeps_memory_run P NotANumber cs v1 v2 Ru) as [_ K]. destruct (K i q Q Bq) as (q' & Q' & Bq').
    destruct (column (lfa_weights v2) j') as [c2|] eqn:C2.
    2:{ unfold v_update_index in U2. rewrite B2, B1, Pz in U2. cbn [obind] in U2. rewrite C2 in U2. discriminate. }
    pose proof (v_update_index_spec LibOptimiser lib_keeps_length v2 z j' e c2 OK2 C2) as Sp.
    unfold s_update in Sp. cbn [lfa_basis lfa_weights lfa_optimiser] in Sp. rewrite B2, B1, Pz in Sp. cbn [obind LibOptimiser o_step_scaled] in Sp.
    destruct (lib_step_scaled (lfa_optimiser v2) c2 psi e) as [[[o3 c3] x3]|] eqn:St; cbn [obind] in Sp; [|rewrite Sp in U2; discriminate].
    destruct Sp as (v' & Ev & _ & _ & _ & _ & _ & Cv & _). rewrite Ev in U2. injection U2 as -> _. cbn [lfa_weights with_state] in Cv.
    rewrite Cv in C'. injection C' as ->.
    destruct (nan_recall (lfa_optimiser v2) c2 psi e n o3 c' x3 q' i) as (y & Y & By); auto.
    - rewrite <- Nr, <- R1, <- R2. apply (column_Ret _ _ _ OK2 C2).
    - rewrite Y, By. reflexivity.
  Qed.
End NaN.
