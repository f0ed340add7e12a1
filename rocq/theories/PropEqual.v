(** C76: values that compare equal. Proofs are in ZeroSign.v, ZeroBasis.v and
    ZeroRun.v; [==] is modelled in DerivedEq.v. *)
From Coq Require Import List Arith ZArith Bool Reals.
From Flocq Require Import Core.Core IEEE754.BinarySingleNaN.
From Verif Require Import Base Scalar ScalarF64 F64Facts HMap NdArray Features Spec FeatureFacts Coeffs Kernels TileCoding
  Basis Optim Lfa LfaSpec EndToEnd ZeroSign DerivedEq ZeroBasis ZeroRun.
Import ListNotations.
Local Open Scope nat_scope.

(** ** C76 *)

(** [sim x y]: the same number, infinity or NaN, or two zeros of any signs. That
    is what [x == y] means, but for NaN. *)
Theorem C76_number : forall x y : f64, Beqb x y = true <-> sim x y /\ b_is_nan x = false.
Proof. exact sim_eqb. Qed.
Print Assumptions C76_number.

(** [==] between optimisers of one type is symmetric and transitive, and an
    optimiser equals itself (so its clone) exactly when it holds no NaN. *)
Theorem C76_optimiser_eq : (forall o p : lib_opt f64, opt_eqb o p = true -> opt_eqb p o = true) /\
  (forall o p q, opt_eqb o p = true -> opt_eqb p q = true -> opt_eqb o q = true) /\
  (forall o, opt_eqb o o = true <-> Forall (fun x => b_is_nan x = false) (opt_numbers o)) /\
  (forall k, kernel_eqb k k = true <-> Forall (fun x => b_is_nan x = false) (kernel_numbers k)).
Proof. splits; [exact opt_eqb_sym|exact opt_eqb_trans|exact opt_eqb_refl|exact kernel_eqb_refl]. Qed.
Print Assumptions C76_optimiser_eq.

(** Changing the sign of every zero a value holds gives an equal value. *)
Definition flip (x : f64) : f64 := match x with B754_zero s => B754_zero (negb s) | _ => x end.
Definition flip_opt (o : lib_opt f64) : lib_opt f64 :=
  let l := map flip in
  match o with
  | LSGD a => LSGD (flip a)
  | LISGD a => LISGD (flip a)
  | LMomentum (MkMomentum a b v) => LMomentum (MkMomentum (flip a) (flip b) (l v))
  | LNAG (MkMomentum a b v) => LNAG (MkMomentum (flip a) (flip b) (l v))
  | LAdagrad (MkAdagrad a v) => LAdagrad (MkAdagrad (flip a) (l v))
  | LAdam (MkAdam a b c d e v u) => LAdam (MkAdam (flip a) (flip b) (flip c) (flip d) (flip e) (l v) (l u))
  | LAdaMax (MkAdaMax a b c d v u) => LAdaMax (MkAdaMax (flip a) (flip b) (flip c) (flip d) (l v) (l u))
  end.
Definition flip_kernel (k : kernel f64) : kernel f64 :=
  MkKernel (match k_kind k with KRationalQuadratic p => KRationalQuadratic (flip p) | kind => kind end)
    (flip (k_variance k)) (map flip (k_lengthscales k)).
Fixpoint flip_basis (b : basis f64) : basis f64 :=
  let limits := map (fun p => (flip (fst p), flip (snd p))) in
  match b with
  | BBias c => BBias (flip c)
  | BFixedDense l => BFixedDense (map flip l)
  | BFourier o l cs => BFourier o (limits l) (map (map flip) cs)
  | BChebyshev o l ps => BChebyshev o (limits l) ps
  | BKernel ps => BKernel (map (fun p => MkProto (map flip (p_centroid p)) (flip_kernel (p_kernel p))) ps)
  | BStack b1 b2 => BStack (flip_basis b1) (flip_basis b2)
  | BL0 b => BL0 (flip_basis b)
  | BL1 b => BL1 (flip_basis b)
  | BL2 b => BL2 (flip_basis b)
  | BLinf b => BLinf (flip_basis b)
  | BFixedSparse _ _ | BPolynomial _ _ | BTile _ _ _ _ | BGrid _ _ | BClosure _ _ => b
  end.
(** The numbers a basis holds itself. *)
Fixpoint basis_numbers (b : basis f64) : list f64 :=
  let limits := flat_map (fun p : f64 * f64 => [fst p; snd p]) in
  match b with
  | BBias c => [c]
  | BFixedDense l => l
  | BFourier _ l cs => limits l ++ concat cs
  | BChebyshev _ l _ => limits l
  | BKernel ps => flat_map (fun p => p_centroid p ++ kernel_numbers (p_kernel p)) ps
  | BStack b1 b2 => basis_numbers b1 ++ basis_numbers b2
  | BL0 b | BL1 b | BL2 b | BLinf b => basis_numbers b
  | BFixedSparse _ _ | BPolynomial _ _ | BTile _ _ _ _ | BGrid _ _ | BClosure _ _ => []
  end.

Theorem C76_zeros : let number x := b_is_nan x = false in
  (forall o, Forall number (opt_numbers o) -> opt_eqb o (flip_opt o) = true) /\
  (forall k, Forall number (kernel_numbers k) -> kernel_eqb k (flip_kernel k) = true) /\
  (forall b, Forall number (basis_numbers b) -> basis_eq b (flip_basis b)).
Proof.
  intros number.
  assert (N : forall x, number x -> Beqb x (flip x) = true).
  { intros x X. apply sim_eqb. split; [|exact X]. destruct x as [s|s| |s m e B]; try apply sim_refl. apply sim_zero. }
  assert (L : forall l, Forall number l -> slice_eqb l (map flip l) = true).
  { induction 1 as [|x l X _ IH]; [reflexivity|]. simpl. rewrite (N x X). exact IH. }
  assert (K : forall k, Forall number (kernel_numbers k) -> kernel_eqb k (flip_kernel k) = true).
  { intros [k v l] Q. unfold kernel_numbers in Q. cbn [k_kind k_variance k_lengthscales] in Q. unfold kernel_eqb, flip_kernel.
    cbn [k_kind k_variance k_lengthscales]. apply andb_true_intro. split; [apply andb_true_intro; split|].
    - destruct k; auto. apply N. rewrite Forall_forall in Q. apply Q. simpl. rewrite ?in_app_iff. simpl. auto.
    - apply N. rewrite Forall_forall in Q. apply Q. destruct k; simpl; rewrite ?in_app_iff; auto.
    - apply L. apply Forall_forall. rewrite Forall_forall in Q. intros x I. apply Q. destruct k; simpl; rewrite ?in_app_iff; auto. }
  assert (M : forall l, Forall number (flat_map (fun p : f64 * f64 => [fst p; snd p]) l) ->
    limits_eqb l (map (fun p => (flip (fst p), flip (snd p))) l) = true).
  { unfold limits_eqb. induction l as [|[x y] l IH]; intros Q; [reflexivity|]. cbn [flat_map app fst snd] in Q.
    apply Forall_cons_iff in Q. destruct Q as [X Q]. apply Forall_cons_iff in Q. destruct Q as [Y Q]. cbn [map vec_eqb fst snd].
    rewrite (N x X), (N y Y). exact (IH Q). }
  splits; auto.
  - intros o Q. destruct o as [a|a|[a b v]|[a b v]|[a v]|[a b c d e v u]|[a b c d v u]]; cbn in Q;
      repeat (apply Forall_cons_iff in Q; destruct Q as [? Q]); try (apply Forall_app in Q; destruct Q);
      cbn; unfold momentum_eqb, adagrad_eqb, adam_eqb, adamax_eqb; cbn; rewrite ?N, ?L by auto; reflexivity.
  - induction b; intros Q; cbn [basis_eq flip_basis basis_numbers] in *; splits; auto; try tauto.
    + apply N. now apply Forall_inv in Q.
    + apply M. now apply Forall_app in Q.
    + apply Forall_app in Q. destruct Q as [_ Q]. induction coefficients as [|c cs IH]; [reflexivity|]. simpl in Q |- *.
      apply Forall_app in Q. destruct Q as [Qc Q]. rewrite (L c Qc). exact (IH Q).
    + induction prototypes as [|[c k] ps IH]; [reflexivity|]. cbn [flat_map p_centroid p_kernel] in Q.
      apply Forall_app in Q. destruct Q as [Qp Q]. apply Forall_app in Qp. destruct Qp as [Qc Qk].
      cbn [map vec_eqb]. unfold proto_eqb at 1. cbn [p_centroid p_kernel]. rewrite (L c Qc), (K k Qk). exact (IH Q).
    + apply Forall_app in Q. apply IHb1, Q.
    + apply Forall_app in Q. apply IHb2, Q.
Qed.
Print Assumptions C76_zeros.

(** Equal optimisers, given equal weights and the same features and error, both
    panic or both return, with the same [Result]; the weights and the
    optimisers they leave are equal again unless a NaN appears. *)
Theorem C76_optimiser : forall P (o o' : lib_opt f64) w w' phi e, let S := ScalarF64 P in zero_blind P ->
  opt_eqb o o' = true -> slice_eqb w w' = true ->
  match o_step_scaled LibOptimiser o w phi e, o_step_scaled LibOptimiser o' w' phi e with
  | Ret (s, v, r), Ret (s', v', r') => r = r' /\ Forall2 sim v v' /\
      (Forall (fun x => b_is_nan x = false) v -> slice_eqb v v' = true) /\
      (Forall (fun x => b_is_nan x = false) (opt_numbers s) -> opt_eqb s s' = true)
  | Panic, Panic => True
  | _, _ => False
  end.
Proof.
  intros P o o' w w' phi e S B O W.
  assert (R := step_scaled_sim P B o o' w w' phi phi e e (opt_eqb_sim _ _ O) (slice_eqb_sim _ _ W) (fsim_refl phi) (sim_refl e)).
  unfold S. destruct (o_step_scaled LibOptimiser o w phi e) as [[[s v] r]|],
    (o_step_scaled LibOptimiser o' w' phi e) as [[[s' v'] r']|]; try contradiction; auto.
  destruct R as (Rs & Rv & Rr). simpl in Rs, Rv, Rr. splits; auto.
  - now apply sim_slice.
  - now apply sim_opt.
Qed.
Print Assumptions C76_optimiser.

(** Equal kernels give the same values on slices: whatever the lengthscales,
    zeros included, since the distances are squared. *)
Theorem C76_kernel : forall P (k k' : kernel f64) x x' y y', let S := ScalarF64 P in zero_blind P ->
  kernel_eqb k k' = true -> slice_eqb x x' = true -> slice_eqb y y' = true ->
  sim (kernel_slice k x y) (kernel_slice k' x' y').
Proof.
  intros P k k' x x' y y' S B K X Y. apply (slice_sim P B); auto using kernel_eqb_sim, slice_eqb_sim.
Qed.
Print Assumptions C76_kernel.

(** On scalars the distance is not squared: equal kernels give the same values
    when their first lengthscale is not a zero. *)
Theorem C76_kernel_scalar : forall P (k k' : kernel f64) x x' y y', let S := ScalarF64 P in zero_blind P ->
  kernel_eqb k k' = true -> Beqb x x' = true -> Beqb y y' = true ->
  (forall l ls, k_lengthscales k = l :: ls -> Beqb l b_zero = false) ->
  match kernel_scalar k x y, kernel_scalar k' x' y' with
  | Ret v, Ret v' => sim v v'
  | Panic, Panic => True
  | _, _ => False
  end.
Proof.
  intros P k k' x x' y y' S B K X Y Z. apply kernel_eqb_sim in K. apply eqb_sim in X, Y.
  unfold kernel_scalar. destruct (proj2 (proj2 K)) as [|l l' ls ls' L Ls]; [reflexivity|]. cbn [vget nth_error obind].
  specialize (Z l ls eq_refl). apply (stationary_sim P B); auto. cbn [fdiv fabs fsub S ScalarF64].
  rewrite (sim_abs _ _ (sim_sub _ _ _ _ X Y)). destruct L as [l|s t]; [apply sim_refl|]. destruct s; discriminate.
Qed.
Print Assumptions C76_kernel_scalar.

(** Equal Exponential kernels with lengthscale 0.0 and -0.0: one says 0.0, the
    other infinity. *)
Theorem C76_kernel_refuted : forall P, let S := ScalarF64 P in p_exp P b_neginf = b_zero -> p_exp P b_inf = b_inf ->
  exists k k' : kernel f64, kernel_eqb k k' = true /\
    kernel_scalar k fone fzero = Ret b_zero /\ kernel_scalar k' fone fzero = Ret b_inf.
Proof.
  intros P S E1 E2. exists (non_ard KExponential b_one b_zero), (non_ard KExponential b_one (B754_zero true)).
  split; [reflexivity|]. unfold kernel_scalar, kernel_stationary, non_ard. cbn [k_kind k_variance k_lengthscales vget nth_error obind].
  cbn [fmul fexp fneg fdiv fabs fsub S ScalarF64].
  replace (Bopp (b_div (Babs (b_sub (@fone f64 S) (@fzero f64 S))) b_zero)) with b_neginf by (apply B2SF_inj; vm_compute; reflexivity).
  replace (Bopp (b_div (Babs (b_sub (@fone f64 S) (@fzero f64 S))) (B754_zero true))) with b_inf by (apply B2SF_inj; vm_compute; reflexivity).
  rewrite E1, E2. split; f_equal; apply B2SF_inj; vm_compute; reflexivity.
Qed.
Print Assumptions C76_kernel_refuted.

(** Equal bases have the same dimension and project equal inputs to the same
    activations, with the same errors and panics. [regular] excludes intervals
    of no width and user functions that tell zeros apart; [same_walk] asks that
    the sets of [Fixed] bases be walked in the same order. *)
Theorem C76_basis : forall P (b c : basis f64) x x', let S := ScalarF64 P in zero_blind P ->
  basis_eq b c -> regular b -> same_walk b c -> Forall2 sim x x' ->
  dim b = dim c /\
  match project b x, project c x' with
  | Ret (Ok (Dense l)), Ret (Ok (Dense l')) => Forall2 sim l l'
  | Ret (Ok (Sparse a)), Ret (Ok (Sparse a')) => sa_dim a = sa_dim a' /\
      Forall2 (fun u v => fst u = fst v /\ sim (snd u) (snd v)) (sa_acts a) (sa_acts a')
  | Ret (Err r), Ret (Err r') => r = r'
  | Panic, Panic => True
  | _, _ => False
  end.
Proof.
  intros P b c x x' S B E R W X. split; [now apply basis_eq_dim|].
  assert (H := project_sim P B b c x x' E R W X). unfold S.
  destruct (project b x) as [[[l|a]|r]|], (project c x') as [[[l'|a']|r']|]; try contradiction; auto.
Qed.
Print Assumptions C76_basis.

(** The bases the constructors build are regular as soon as no interval is
    empty. *)
Theorem C76_chebyshev : forall P order limits b, let S := ScalarF64 P in zero_blind P ->
  chebyshev_new order limits = Ret b -> (forall lo hi, In (lo, hi) limits -> Beqb lo hi = false) -> regular b.
Proof.
  intros P order limits b S B E L. unfold chebyshev_new in E. destruct (11 <? order); [discriminate|].
  destruct (make_polynomials order (length limits)) as [ps|] eqn:Ep; [|discriminate]. injection E as <-. split.
  - apply Forall_forall. intros [lo hi] I. now apply L.
  - unfold make_polynomials in Ep. revert ps Ep. generalize (compute_coefficients order (length limits)).
    assert (Z : forall l fs, omapM (@cheb_fn f64 S) l = Ret fs -> Forall blind fs).
    { induction l as [|i l IH]; intros fs Q; [injection Q as <-; constructor|]. cbn [omapM] in Q.
      destruct (cheb_fn i) as [f|] eqn:Ef; [|discriminate]. destruct (omapM cheb_fn l) as [gs|]; [|discriminate].
      injection Q as <-. constructor; [|now apply IH]. exact (cheb_fn_blind P B i f Ef). }
    induction l as [|is l IH]; intros ps Q; [injection Q as <-; constructor|]. cbn [omapM] in Q.
    destruct (omapM cheb_fn is) as [fs|] eqn:Ef; [|discriminate]. destruct (omapM (omapM cheb_fn) l) as [gs|]; [|discriminate].
    injection Q as <-. constructor; [|now apply IH]. exact (Z _ _ Ef).
Qed.
Print Assumptions C76_chebyshev.

(** Equal approximators - equal bases, equal weights, equal optimisers - given
    the same calls: both panic or both end, and then agree on the value of
    every input, up to the sign of a zero. *)
Theorem C76_scalar : forall P (b c : basis f64) w w' (o o' : lib_opt f64) h, let S := ScalarF64 P in zero_blind P ->
  basis_eq b c -> regular b -> same_walk b c -> slice_eqb w w' = true -> opt_eqb o o' = true ->
  Forall (fun k => s_call_sim k k) h ->
  match s_run LibOptimiser h (MkLFA (as_basis b) w o), s_run LibOptimiser h (MkLFA (as_basis c) w' o') with
  | Ret a, Ret a' => Forall2 sim (lfa_weights a) (lfa_weights a') /\
      (Forall (fun x => b_is_nan x = false) (opt_numbers (lfa_optimiser a)) ->
       opt_eqb (lfa_optimiser a) (lfa_optimiser a') = true) /\
      forall x, match s_evaluate a x, s_evaluate a' x with
                | Ret (Ok v), Ret (Ok v') => sim v v'
                | Ret (Err r), Ret (Err r') => r = r'
                | Panic, Panic => True
                | _, _ => False
                end
  | Panic, Panic => True
  | _, _ => False
  end.
Proof.
  intros P b c w w' o o' h S B E R W Hw Ho Hh.
  assert (C : Forall2 s_call_sim h h) by (induction Hh; constructor; auto).
  assert (A : s_sim (MkLFA (@as_basis f64 S b) w o) (MkLFA (@as_basis f64 S c) w' o')).
  { split; [|split]; [now apply (eq_projections P B)|now apply slice_eqb_sim|now apply opt_eqb_sim]. }
  assert (Q := s_run_sim P B h h C _ _ A). unfold S in *.
  destruct (s_run LibOptimiser h (MkLFA (as_basis b) w o)) as [a|], (s_run LibOptimiser h (MkLFA (as_basis c) w' o')) as [a'|];
    try contradiction; auto.
  splits; [apply Q|apply sim_opt, Q|]. intros x. assert (V := s_evaluate_sim P B a a' x x Q (lsim_refl x)).
  destruct (s_evaluate a x) as [[v|r]|], (s_evaluate a' x) as [[v'|r']|]; try contradiction; auto.
Qed.
Print Assumptions C76_scalar.

Theorem C76_vector : forall P (b c : basis f64) m m' (o o' : lib_opt f64) h, let S := ScalarF64 P in zero_blind P ->
  basis_eq b c -> regular b -> same_walk b c -> vec_eqb slice_eqb (mrows m) (mrows m') = true -> mcols m = mcols m' ->
  opt_eqb o o' = true -> Forall (fun k => v_call_sim k k) h ->
  match v_run LibOptimiser h (MkLFA (as_basis b) m o), v_run LibOptimiser h (MkLFA (as_basis c) m' o') with
  | Ret a, Ret a' => Forall2 (Forall2 sim) (mrows (lfa_weights a)) (mrows (lfa_weights a')) /\
      forall x, match v_evaluate a x, v_evaluate a' x with
                | Ret (Ok v), Ret (Ok v') => Forall2 sim v v'
                | Ret (Err r), Ret (Err r') => r = r'
                | Panic, Panic => True
                | _, _ => False
                end
  | Panic, Panic => True
  | _, _ => False
  end.
Proof.
  intros P b c m m' o o' h S B E R W Hm Hc Ho Hh.
  assert (C : Forall2 v_call_sim h h) by (induction Hh; constructor; auto).
  assert (A : v_sim (MkLFA (@as_basis f64 S b) m o) (MkLFA (@as_basis f64 S c) m' o')).
  { split; [|split]; [now apply (eq_projections P B)| |now apply opt_eqb_sim]. split; auto.
    apply vec_eqb_spec in Hm. exact (forall2_imp _ _ _ _ slice_eqb_sim Hm). }
  assert (Q := v_run_sim P B h h C _ _ A). unfold S in *.
  destruct (v_run LibOptimiser h (MkLFA (as_basis b) m o)) as [a|], (v_run LibOptimiser h (MkLFA (as_basis c) m' o')) as [a'|];
    try contradiction; auto.
  split; [apply Q|]. intros x. assert (V := v_evaluate_sim P B a a' x x Q (lsim_refl x)).
  destruct (v_evaluate a x) as [[v|r]|], (v_evaluate a' x) as [[v'|r']|]; try contradiction; auto.
Qed.
Print Assumptions C76_vector.

(** Two Chebyshev bases over the interval from 0.0 to 0.0 that are equal, one
    with its upper limit written -0.0: opposite infinities. *)
Theorem C76_limits_refuted : forall P, let S := ScalarF64 P in exists (b c : basis f64) x,
  chebyshev_new 1 [(b_zero, b_zero)] = Ret b /\ chebyshev_new 1 [(b_zero, B754_zero true)] = Ret c /\ basis_eq b c /\
  project b x = Ret (Ok (Dense [b_inf])) /\ project c x = Ret (Ok (Dense [b_neginf])).
Proof.
  intros P S. do 2 eexists. exists [b_one]. split; [reflexivity|]. split; [reflexivity|]. split; [repeat split|].
  split; cbn [project map]; do 4 f_equal; apply B2SF_inj; vm_compute; reflexivity.
Qed.
Print Assumptions C76_limits_refuted.

(** Two equal [Fixed] sets walked in opposite orders: the sums round
    differently and the approximators, equal in every part, disagree. *)
Theorem C76_walk_refuted : forall P, let S := ScalarF64 P in exists (b c : basis f64) w,
  basis_eq b c /\ regular b /\
  s_evaluate (MkLFA (as_basis b) w tt) [] = Ret (Ok b_zero) /\ s_evaluate (MkLFA (as_basis c) w tt) [] = Ret (Ok b_one).
Proof.
  intros P S. exists (BFixedSparse 3 [0; 1; 2]), (BFixedSparse 3 [2; 1; 0]), [b_dyadic 1 53; b_one; b_dyadic (-1) 53].
  split; [split; [reflexivity|intros i; simpl; tauto]|]. split; [exact I|].
  split; cbv [s_evaluate]; cbn; do 2 f_equal; apply B2SF_inj; vm_compute; reflexivity.
Qed.
Print Assumptions C76_walk_refuted.

(** Non-vacuity: momentum with a velocity of -0.0 and of 0.0 are equal and
    distinct; so are two stacks of a normalised Chebyshev basis and a kernel
    basis, which the theorem covers. *)
Example C76_case : zero_blind SimplePlatform /\
  let m z := LMomentum (MkMomentum b_one b_one [B754_zero z; b_one]) in
  opt_eqb (m true) (m false) = true /\ m true <> m false /\
  exists p b c, @make_polynomials f64 (ScalarF64 SimplePlatform) 2 1 = Ret p /\
  b = BStack (BL2 (BChebyshev 2 [(B754_zero true, b_one)] p)) (BKernel [MkProto [b_one] (non_ard KExpQuad b_one b_zero)]) /\
  c = BStack (BL2 (BChebyshev 2 [(b_zero, b_one)] p)) (BKernel [MkProto [b_one] (non_ard KExpQuad b_one (B754_zero true))]) /\
  basis_eq b c /\ b <> c /\ regular b /\ same_walk b c.
Proof.
  split; [exact simple_blind|]. split; [reflexivity|]. split; [discriminate|]. do 3 eexists. split; [reflexivity|].
  split; [reflexivity|]. split; [reflexivity|]. splits; try discriminate.
  - simpl. repeat split.
  - assert (R : @chebyshev_new f64 (ScalarF64 SimplePlatform) 2 [(B754_zero true, b_one)] = Ret (BChebyshev 2 [(B754_zero true, b_one)]
      [[t_1]; [t_2]])) by reflexivity.
    split; [|exact I]. apply (C76_chebyshev SimplePlatform 2 [(B754_zero true, b_one)] _ simple_blind R).
    intros lo hi [Q|[]]. injection Q as <- <-. vm_compute. reflexivity.
  - simpl. auto.
Qed.
