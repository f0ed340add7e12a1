(** Bases and approximators that compare equal, and the sign of a zero (C76). *)
From Coq Require Import List Arith ZArith Lia Bool Reals Lra.
From Flocq Require Import Core.Core IEEE754.BinarySingleNaN.
From Flocq Require Plus_error.
From Verif Require Import Base Scalar ScalarF64 HMap NdArray Features FeatureFacts Coeffs Kernels TileCoding Basis
  Optim Lfa LfaSpec EndToEnd F64Facts ZeroSign DerivedEq.
Import ListNotations.
Local Open Scope nat_scope.

(** ** derived equality *)

Lemma slice_eqb_spec l : forall m, slice_eqb l m = true <-> Forall2 (fun x y => Beqb x y = true) l m.
Proof.
  induction l as [|x l IH]; intros [|y m]; simpl; split; intros H; try discriminate; try constructor;
    try (inversion H; fail); auto.
  - apply andb_true_iff in H. apply H.
  - apply andb_true_iff in H. now apply IH.
  - inversion H; subst. apply andb_true_iff. split; auto. now apply IH.
Qed.

Lemma vec_eqb_spec {A} (eqb : A -> A -> bool) l : forall m, vec_eqb eqb l m = true <-> Forall2 (fun x y => eqb x y = true) l m.
Proof.
  induction l as [|x l IH]; intros [|y m]; simpl; split; intros H; try discriminate; try constructor;
    try (inversion H; fail); auto.
  - apply andb_true_iff in H. apply H.
  - apply andb_true_iff in H. now apply IH.
  - inversion H; subst. apply andb_true_iff. split; auto. now apply IH.
Qed.

Lemma forall2_imp {A B} (Q S : A -> B -> Prop) l m : (forall a b, Q a b -> S a b) -> Forall2 Q l m -> Forall2 S l m.
Proof. intros H. induction 1; constructor; auto. Qed.

Lemma eqb_sim (x y : f64) : Beqb x y = true -> sim x y.
Proof. intros H. now apply sim_eqb. Qed.

Lemma slice_eqb_sim l m : slice_eqb l m = true -> lsim l m.
Proof. intros H. apply slice_eqb_spec in H. exact (forall2_imp _ _ _ _ eqb_sim H). Qed.

Ltac ands := repeat match goal with H : (_ && _)%bool = true |- _ => apply andb_true_iff in H; destruct H end.

Lemma opt_eqb_sim o o' : opt_eqb o o' = true -> opt_sim o o'.
Proof.
  destruct o, o'; simpl; intros H; try discriminate; auto using eqb_sim.
  all: unfold momentum_eqb, adagrad_eqb, adam_eqb, adamax_eqb in H; ands;
    unfold momentum_sim, adagrad_sim, adam_sim, adamax_sim; splits; auto using eqb_sim, slice_eqb_sim.
Qed.

Lemma kernel_eqb_sim k k' : kernel_eqb k k' = true -> kernel_sim k k'.
Proof.
  unfold kernel_eqb, kernel_sim, kind_sim. intros H. ands. splits; auto using eqb_sim, slice_eqb_sim.
  destruct (k_kind k), (k_kind k'); try discriminate; auto using eqb_sim.
Qed.

(** [==] is symmetric and transitive; reflexive but for NaN. *)
Lemma eqb_sym (x y : f64) : Beqb x y = true -> Beqb y x = true.
Proof. intros H. apply sim_eqb in H. destruct H as [S N]. apply sim_eqb. destruct S; auto. Qed.

Lemma slice_sym l m : slice_eqb l m = true -> slice_eqb m l = true.
Proof. rewrite !slice_eqb_spec. induction 1; constructor; auto using eqb_sym. Qed.

Lemma slice_trans l m n : slice_eqb l m = true -> slice_eqb m n = true -> slice_eqb l n = true.
Proof.
  rewrite !slice_eqb_spec. intros A. revert n. induction A; intros n C; inversion C; subst; constructor; eauto using b_eqb_trans.
Qed.

Lemma slice_refl l : slice_eqb l l = true <-> Forall (fun x => b_is_nan x = false) l.
Proof.
  rewrite slice_eqb_spec. induction l as [|x l IH]; split; intros H; constructor; inversion H; subst; try apply IH; auto.
  - rewrite b_eqb_refl in *. now destruct (b_is_nan x).
  - rewrite b_eqb_refl. now rewrite H2.
Qed.

Ltac splitb := repeat match goal with |- (_ && _)%bool = true => apply andb_true_iff; split end.

Lemma opt_eqb_sym o o' : opt_eqb o o' = true -> opt_eqb o' o = true.
Proof.
  destruct o, o'; simpl; intros H; try discriminate; auto using eqb_sym;
    unfold momentum_eqb, adagrad_eqb, adam_eqb, adamax_eqb in *; ands; splitb; auto using eqb_sym, slice_sym.
Qed.

Lemma opt_eqb_trans o p q : opt_eqb o p = true -> opt_eqb p q = true -> opt_eqb o q = true.
Proof.
  destruct o, p; simpl; intros H; try discriminate; destruct q; simpl; intros H'; try discriminate;
    unfold momentum_eqb, adagrad_eqb, adam_eqb, adamax_eqb in *; ands; splitb; eauto using b_eqb_trans, slice_trans.
Qed.

(** The numbers an optimiser holds. *)
Definition opt_numbers (o : lib_opt f64) : list f64 :=
  match o with
  | LSGD a | LISGD a => [a]
  | LMomentum s | LNAG s => mo_momentum s :: mo_lr s :: mo_velocity s
  | LAdagrad s => ag_lr s :: ag_acc s
  | LAdam s => ad_beta1 s :: ad_beta1_prod s :: ad_beta2 s :: ad_beta2_prod s :: ad_lr s :: ad_exp_avg s ++ ad_exp_avg_sq s
  | LAdaMax s => am_beta1 s :: am_beta1_prod s :: am_beta2 s :: am_lr s :: am_exp_avg s ++ am_exp_inf s
  end.

Lemma opt_eqb_refl o : opt_eqb o o = true <-> Forall (fun x => b_is_nan x = false) (opt_numbers o).
Proof.
  assert (N : forall x : f64, Beqb x x = true <-> b_is_nan x = false).
  { intros x. rewrite b_eqb_refl. destruct (b_is_nan x); simpl; intuition congruence. }
  destruct o; simpl; unfold momentum_eqb, adagrad_eqb, adam_eqb, adamax_eqb; rewrite ?andb_true_iff, ?N, ?slice_refl,
    ?Forall_cons_iff, ?Forall_app; intuition.
Qed.

Definition kernel_numbers (k : kernel f64) : list f64 :=
  match k_kind k with KRationalQuadratic p => [p] | _ => [] end ++ k_variance k :: k_lengthscales k.

Lemma kernel_eqb_refl k : kernel_eqb k k = true <-> Forall (fun x => b_is_nan x = false) (kernel_numbers k).
Proof.
  assert (N : forall x : f64, Beqb x x = true <-> b_is_nan x = false).
  { intros x. rewrite b_eqb_refl. destruct (b_is_nan x); simpl; intuition congruence. }
  unfold kernel_eqb, kernel_numbers. destruct (k_kind k); cbn [app];
    rewrite ?andb_true_iff, ?N, ?slice_refl, ?Forall_cons_iff; intuition.
Qed.

(** ** limits *)

Lemma width_nonzero (lo hi : f64) : Beqb lo hi = false -> nonzero (b_sub hi lo).
Proof.
  intros E. destruct (b_sub hi lo) as [s| | |] eqn:Z; simpl; auto.
  assert (Fh : b_finite hi = true /\ b_finite lo = true).
  { destruct hi as [?|[]| |? ? ? ?], lo as [?|[]| |? ? ? ?]; try discriminate Z; try discriminate E; auto. }
  destruct Fh as [Fh Fl].
  assert (Q := Bminus_correct 53 1024 f64_prec f64_emax mode_NE hi lo Fh Fl).
  unfold b_sub in Z. destruct (Rlt_bool _ _).
  - destruct Q as (V & _). rewrite Z in V. simpl in V.
    assert (D : (b_real hi + - b_real lo <> 0)%R).
    { intros D. assert (X : b_real lo = b_real hi) by lra.
      rewrite (Beqb_correct 53 1024 lo hi Fl Fh) in E. rewrite X in E. rewrite Req_bool_true in E; [discriminate|reflexivity]. }
    unfold Rminus in V. symmetry in V.
    assert (Pr := f64_prec). refine (Plus_error.round_plus_neq_0 radix2 (FLT_exp (-1074) 53) ZnearestE (b_real hi) (- b_real lo)%R _ _ D V).
    + apply generic_format_B2R.
    + apply generic_format_opp, generic_format_B2R.
  - destruct Q as [Q _]. apply overflow_not_finite in Q. unfold b_finite in Q. rewrite Z in Q. discriminate.
Qed.

Definition limits_sim : list (f64 * f64) -> list (f64 * f64) -> Prop :=
  Forall2 (fun p q => sim (fst p) (fst q) /\ sim (snd p) (snd q)).

Definition proper (limits : list (f64 * f64)) : Prop := Forall (fun l => Beqb (fst l) (snd l) = false) limits.

Section Bases.
Context (P : Platform) (B : zero_blind P).
Local Notation FP := (ScalarF64 P).
Local Hint Resolve sim_add sim_sub sim_mul sim_div sim_sqrt sim_neg sim_max : core.

Lemma rescale_sim x x' l l' : lsim x x' -> limits_sim l l' -> proper l ->
  lsim (@rescale f64 FP x l) (@rescale f64 FP x' l').
Proof.
  intros X L. revert x x' X. unfold rescale. induction L as [|p q l l' [Lo Hi] L IH]; intros x x' X Pr.
  - destruct X; constructor.
  - inversion Pr; subst. destruct X as [|v v' x x' V X]; [constructor|]. constructor; [|now apply IH]. cbn [fdiv fsub ScalarF64].
    rewrite <- (sim_nonzero (b_sub (snd p) (fst p)) (b_sub (snd q) (fst q))); auto using width_nonzero.
Qed.

Lemma product_sim l l' : lsim l l' -> sim (@product f64 FP l) (@product f64 FP l').
Proof. intros L. unfold product. refine (fold_rel sim sim _ _ _ _ L _ _ _ (sim_refl _)). intros; simpl; auto. Qed.

Lemma fourier_sim s s' c c' : lsim s s' -> lsim c c' -> sim (@fourier_feature f64 FP s c) (@fourier_feature f64 FP s' c').
Proof.
  intros S C. unfold fourier_feature. destruct B as (Bc & _). cbn [fcos fmul fpi ScalarF64]. apply Bc, sim_mul; auto.
  refine (fold_rel _ sim _ _ _ _ (combine_rel sim sim _ _ _ _ S C) _ _ _ (sim_refl _)).
  intros a a' p q A [P1 P2]. simpl. auto.
Qed.

Lemma polynomial_sim x x' es : lsim x x' -> sim (@polynomial_feature f64 FP x es) (@polynomial_feature f64 FP x' es).
Proof.
  intros X. unfold polynomial_feature. apply product_sim. refine (map2_rel sim eq sim _ _ _ _ _ _ X (eq_rel es) _).
  intros a a' b b' A ->. destruct B as (_ & _ & _ & Bp & _). simpl. auto.
Qed.

(** Functions that cannot tell zeros apart. *)
Definition blind (f : f64 -> f64) : Prop := forall x y, sim x y -> sim (f x) (f y).

Lemma chebyshev_sim s s' fs : lsim s s' -> Forall blind fs ->
  sim (@chebyshev_feature f64 FP s fs) (@chebyshev_feature f64 FP s' fs).
Proof.
  intros S F. unfold chebyshev_feature. apply product_sim. revert fs F.
  induction S as [|a a' s s' A S IH]; intros fs F; [constructor|]. destruct F; constructor; auto. apply IH; auto.
Qed.

Lemma cheb_fn_blind i f : @cheb_fn f64 FP i = Ret f -> blind f.
Proof.
  destruct B as (_ & _ & _ & Bp & _).
  intros E x y S. do 12 (destruct i as [|i]; [injection E as <-;
    unfold t_0, t_1, t_2, t_3, t_4, t_5, t_6, t_7, t_8, t_9, t_10, t_11; cbn [fadd fsub fmul fpowi ScalarF64]; auto 20|]).
  discriminate.
Qed.

(** What the theorem asks of the parts of a basis: no degenerate interval in
    a Fourier or Chebyshev basis, and of what the library does not control -
    Chebyshev's function table, the grid's [map_onto], the user's closures -
    that it cannot tell zeros apart. *)
Fixpoint regular (b : basis f64) : Prop :=
  match b with
  | BFourier _ l _ => proper l
  | BChebyshev _ l ps => proper l /\ Forall (Forall blind) ps
  | BGrid _ space => Forall (fun e => forall x y, sim x y -> ep_map_onto e x = ep_map_onto e y) space
  | BClosure _ f => forall x y, lsim x y -> orel (rrel fsim) (f x) (f y)
  | BStack b1 b2 => regular b1 /\ regular b2
  | BL0 b | BL1 b | BL2 b | BLinf b => regular b
  | _ => True
  end.

(** The active sets of [Fixed] are walked in the same order. *)
Fixpoint same_walk (b c : basis f64) : Prop :=
  match b, c with
  | BFixedSparse _ l, BFixedSparse _ l' => l = l'
  | BStack b1 b2, BStack c1 c2 => same_walk b1 c1 /\ same_walk b2 c2
  | BL0 b, BL0 c | BL1 b, BL1 c | BL2 b, BL2 c | BLinf b, BLinf c => same_walk b c
  | _, _ => True
  end.

Lemma limits_eqb_sim l l' : limits_eqb l l' = true -> limits_sim l l'.
Proof.
  intros H. apply vec_eqb_spec in H. refine (forall2_imp _ _ _ _ _ H). intros p q E. ands. split; now apply eqb_sim.
Qed.

Lemma grid_sim space x x' : Forall (fun e => forall x y, sim x y -> ep_map_onto e x = ep_map_onto e y) space -> lsim x x' ->
  grid_hash space x = grid_hash space x'.
Proof.
  intros R X. destruct R as [|d ds Rd R]; [reflexivity|]. destruct X as [|v v' x x' V X]; [reflexivity|].
  unfold grid_hash. f_equal. rewrite (Rd v v' V). generalize (ep_map_onto d v'). revert x x' X.
  induction R as [|e es Re R IH]; intros x x' X n; [reflexivity|]. destruct X as [|u u' x x' U X]; [reflexivity|].
  cbn [combine fold_left fst snd]. rewrite (Re u u' U). now apply IH.
Qed.

Lemma bins_sim x x' nt : lsim x x' -> @bin_state f64 FP x nt = @bin_state f64 FP x' nt.
Proof.
  intros X. unfold bin_state. induction X as [|a b x x' A X IH]; [reflexivity|]. cbn [map]. rewrite IH. f_equal.
  apply sim_floor. cbn [fmul ScalarF64]. auto.
Qed.

Theorem project_sim b : forall c x x', basis_eq b c -> regular b -> same_walk b c -> lsim x x' ->
  orel (rrel fsim) (@project f64 FP b x) (@project f64 FP c x').
Proof.
  induction b; intros d x x' E R W X; destruct d; try contradiction; cbn [project].
  - simpl. constructor; auto. now apply eqb_sim.
  - simpl. now apply slice_eqb_sim.
  - destruct E as [<- _]. simpl in W. subst. apply fsim_refl.
  - destruct E as (_ & L & C). simpl. apply vec_eqb_spec in C. eapply map_rel; [exact C|].
    intros a a' A. apply fourier_sim; [|now apply slice_eqb_sim]. apply rescale_sim; auto. now apply limits_eqb_sim.
  - destruct E as (_ & <-). simpl. refine (map_rel eq sim _ _ _ _ (eq_rel exponents) _). intros a a' ->. now apply polynomial_sim.
  - destruct E as (_ & L & <-). destruct R as [Pr Bl]. simpl.
    assert (S : lsim (@chebyshev_scale f64 FP x limits) (@chebyshev_scale f64 FP x' limits0)).
    { unfold chebyshev_scale. eapply map_rel; [apply rescale_sim; [exact X|apply limits_eqb_sim, L|exact Pr]|]. intros a b Sab. cbn [fsub fmul ScalarF64]. auto. }
    clear L W. induction Bl as [|fs ps Hf Bl IH]; [constructor|]. constructor; [|exact IH]. now apply chebyshev_sim.
  - simpl in E. apply vec_eqb_spec in E. simpl. eapply map_rel; [exact E|]. intros p q Epq. unfold proto_eqb in Epq. ands.
    unfold distance_from. apply slice_sim; auto using kernel_eqb_sim, slice_eqb_sim.
  - destruct E as (<- & <- & <- & <-). unfold tile_project. rewrite (bins_sim x x' _ X).
    destruct (hash_state _ _ _ _ _ _ _); simpl; auto.
  - destruct E as (<- & <-). rewrite (grid_sim _ x x' R X). destruct (grid_hash _ _); simpl; auto.
  - destruct E as (<- & <-). now apply R.
  - destruct E as [E1 E2], R as [R1 R2], W as [W1 W2]. eapply bind_rel; [apply IHb1; eauto|].
    intros r1 r1' H1. destruct r1 as [f1|], r1' as [f1'|]; try contradiction; auto.
    eapply bind_rel; [apply IHb2; eauto|]. intros r2 r2' H2. eapply rmap_rel; [exact H2|].
    intros f2 f2' H3. now apply stack_sim.
  - eapply bind_rel; [apply IHb; eauto|]. intros r r' H. eapply rmap_rel; [exact H|]. intros f f' Hf. now apply l0_sim.
  - eapply bind_rel; [apply IHb; eauto|]. intros r r' H. eapply rmap_rel; [exact H|]. intros f f' Hf.
    apply (normalise_sim P); auto. apply l1_norm_sim.
  - eapply bind_rel; [apply IHb; eauto|]. intros r r' H. eapply rmap_rel; [exact H|]. intros f f' Hf.
    apply (normalise_sim P); auto. apply l2_norm_sim.
  - eapply bind_rel; [apply IHb; eauto|]. intros r r' H. eapply rmap_rel; [exact H|]. intros f f' Hf.
    apply (normalise_sim P); auto. apply linf_norm_sim.
Qed.
End Bases.
