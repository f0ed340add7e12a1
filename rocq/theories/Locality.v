(** Optimisers act coordinate by coordinate (C69).

    [s] picks, for each index below [m], the index of a weight of a larger run.
    A history, weights and optimiser state that read the same through [s] train
    to weights and state that read the same through [s]. *)
From Coq Require Import List Arith ZArith Lia.
From Verif Require Import Base Scalar HMap HMapFacts NdArray VecFacts Features Spec FeatureFacts Optim OptimSpec OptimFacts OptimOrder.
Import ListNotations.

Section Locality.
  Context {F : Type} `{Scalar F}.
  Implicit Types (phi psi : Features F) (o : lib_opt F).

  (** The entries of [l'] are those of [l] at [s 0], ..., [s (m - 1)]. *)
  Definition picks (s : nat -> nat) (m : nat) (l l' : list F) : Prop :=
    length l' = m /\ forall i, i < m -> nth_error l' i = nth_error l (s i).

  Definition picks_features (s : nat -> nat) (m : nat) phi psi : Prop :=
    is_sparse psi = is_sparse phi /\ forall i v, i < m -> (stores psi i v <-> stores phi (s i) v).

  Definition picks_history (s : nat -> nat) (m : nat) (h h' : history F) : Prop :=
    Forall2 (fun p q => snd q = snd p /\ picks_features s m (fst p) (fst q)) h h'.

  Definition picks_opt (s : nat -> nat) (m : nat) o o' : Prop :=
    match o, o' with
    | LSGD lr, LSGD lr' => lr' = lr
    | LMomentum a, LMomentum b | LNAG a, LNAG b =>
        mo_momentum b = mo_momentum a /\ mo_lr b = mo_lr a /\ picks s m (mo_velocity a) (mo_velocity b)
    | LAdagrad a, LAdagrad b => ag_lr b = ag_lr a /\ picks s m (ag_acc a) (ag_acc b)
    | LAdam a, LAdam b =>
        ad_beta1 b = ad_beta1 a /\ ad_beta1_prod b = ad_beta1_prod a /\
        ad_beta2 b = ad_beta2 a /\ ad_beta2_prod b = ad_beta2_prod a /\ ad_lr b = ad_lr a /\
        picks s m (ad_exp_avg a) (ad_exp_avg b) /\ picks s m (ad_exp_avg_sq a) (ad_exp_avg_sq b)
    | LAdaMax a, LAdaMax b =>
        am_beta1 b = am_beta1 a /\ am_beta1_prod b = am_beta1_prod a /\ am_beta2 b = am_beta2 a /\ am_lr b = am_lr a /\
        picks s m (am_exp_avg a) (am_exp_avg b) /\ picks s m (am_exp_inf a) (am_exp_inf b)
    | _, _ => False
    end.

  Context (s : nat -> nat) (m n : nat) (s_lt : forall i, i < m -> s i < n).

  Lemma picks_get phi psi i : keyed phi -> keyed psi -> picks_features s m phi psi -> i < m -> get psi i = get phi (s i).
  Proof.
    intros K K' [_ P] L. destruct (get phi (s i)) as [v|] eqn:G.
    - apply get_stores; auto. apply P; auto. apply get_stores; auto.
    - destruct (get psi i) as [v|] eqn:G'; auto. apply get_stores in G'; auto. apply P in G'; auto.
      apply get_stores in G'; auto. congruence.
  Qed.

  Lemma picks_at (l l' : list F) i : length l = n -> picks s m l l' -> i < m ->
    exists x, nth_error l (s i) = Some x /\ nth_error l' i = Some x.
  Proof.
    intros L [_ P] Li. destruct (nth_error_lt l (s i)) as [x X]; [rewrite L; auto|]. exists x. rewrite P; auto.
  Qed.

  Lemma velocity_get mu sf phi i x : i < size phi -> new_velocity mu sf phi i x =
    match phi with
    | Dense _ => fadd (fmul mu x) (fmul (match get phi i with Some a => a | None => fzero end) sf)
    | Sparse _ => match get phi i with Some a => fadd (fmul x mu) (fmul a sf) | None => fmul x mu end
    end.
  Proof.
    intros L. destruct phi as [da|sa]; simpl in *; auto.
    destruct (nth_error_lt da i L) as [y Y]. rewrite Y, (nth_error_nth da i fzero Y). reflexivity.
  Qed.

  Lemma picks_velocity mu sf phi psi i x : sized n phi -> sized m psi -> picks_features s m phi psi -> i < m ->
    new_velocity mu sf psi i x = new_velocity mu sf phi (s i) x.
  Proof.
    intros [[K _] Z] [[K' _] Z'] P L. rewrite !velocity_get by (rewrite ?Z, ?Z'; auto).
    rewrite (picks_get phi psi i) by auto. destruct P as [V _]. destruct phi, psi; try discriminate; reflexivity.
  Qed.

  Lemma expands_at_get phi l i v : keyed phi -> expands phi l -> nth_error l i = Some v ->
    v = match get phi i with Some a => a | None => fzero end.
  Proof.
    intros K [_ X] N. destruct (X i v N) as [S|[S ->]].
    - apply get_stores in S; auto. now rewrite S.
    - destruct (get phi i) as [a|] eqn:G; auto. exfalso. apply S. exists a. apply get_stores; auto.
  Qed.

  Lemma picks_bump phi psi a w w' w1 w1' : sized n phi -> sized m psi -> picks_features s m phi psi ->
    length w = n -> picks s m w w' ->
    scaled_addto phi a w = Ret w1 -> scaled_addto psi a w' = Ret w1' -> picks s m w1 w1'.
  Proof.
    intros Z Z' P L [L' Pw] E E'.
    destruct (sized_fits _ phi w Z L) as [K Fi]. destruct (sized_fits _ psi w' Z' L') as [K' Fi'].
    destruct (scaled_addto_spec phi a w K Fi) as (x & Ex & Lx & Nx).
    destruct (scaled_addto_spec psi a w' K' Fi') as (y & Ey & Ly & Ny).
    assert (x = w1) by congruence. assert (y = w1') by congruence. subst x y.
    split; [congruence|]. intros i Li. destruct (picks_at w w' i L (conj L' Pw) Li) as (x & X & X').
    destruct (Nx _ _ X) as [A B]. destruct (Ny _ _ X') as [A' B'].
    destruct (get phi (s i)) as [v|] eqn:G.
    - assert (G' : get psi i = Some v) by (rewrite (picks_get phi psi); auto).
      apply get_stores in G, G'; auto. rewrite (A _ G), (A' _ G'). reflexivity.
    - assert (G' : get psi i = None) by (rewrite (picks_get phi psi); auto).
      rewrite B, B'; auto; intros [v S]; apply get_stores in S; auto; congruence.
  Qed.

  Theorem picks_step o o' w w' phi psi sf : sized n phi -> sized m psi -> picks_features s m phi psi ->
    length w = n -> opt_sized n o -> picks s m w w' -> picks_opt s m o o' ->
    exists o1 w1 o1' w1', lib_step_scaled o w phi sf = Ret (o1, w1, Ok tt) /\ lib_step_scaled o' w' psi sf = Ret (o1', w1', Ok tt) /\
      length w1 = n /\ opt_sized n o1 /\ picks s m w1 w1' /\ picks_opt s m o1 o1'.
  Proof.
    intros Z Z' P L O Pw Po.
    assert (O' : opt_sized m o') by (destruct o, o'; simpl in *; unfold picks in *; tauto).
    assert (L' : length w' = m) by apply Pw.
    destruct (lib_step_scaled_ok n o w phi sf Z L O) as (o1 & w1 & E1 & Lw1 & O1).
    destruct (lib_step_scaled_ok m o' w' psi sf Z' L' O') as (o1' & w1' & E1' & Lw1' & O1').
    exists o1, w1, o1', w1'. refine (conj E1 (conj E1' (conj Lw1 (conj O1 _)))).
    pose proof (proj1 (proj1 Z)) as K. pose proof (proj1 (proj1 Z')) as K'.
    assert (Zw : sized (length w) phi) by now rewrite L. assert (Zw' : sized (length w') psi) by now rewrite L'.
    destruct o as [lr|lr|a|a|a|a|a], o' as [lr'|lr'|b|b|b|b|b]; simpl in Po; try contradiction; simpl in E1, E1', O, O'.
    - subst lr'. unfold sgd_step_scaled in *.
      destruct (scaled_addto phi (fmul lr sf) w) as [x|] eqn:X; [|discriminate]. injection E1 as <- <-.
      destruct (scaled_addto psi (fmul lr sf) w') as [y|] eqn:Y; [|discriminate]. injection E1' as <- <-.
      split; [|reflexivity]. exact (picks_bump phi psi _ w w' x y Z Z' P L Pw X Y).
    - destruct Po as (Em & El & Pv).
      destruct (momentum_step_spec a w phi sf Zw) as (v1 & x & X & Lv & Lx & N); [congruence|].
      destruct (momentum_step_spec b w' psi sf Zw') as (v2 & y & Y & Lv' & Ly & N'); [congruence|].
      rewrite X in E1. rewrite Y in E1'. injection E1 as <- <-. injection E1' as <- <-.
      assert (Q : forall i, i < m -> nth_error v2 i = nth_error v1 (s i) /\ nth_error y i = nth_error x (s i)).
      { intros i Li. destruct (picks_at _ _ i L Pw Li) as (u & U & U'). destruct (picks_at _ _ i O Pv Li) as (z & W & W').
        destruct (N _ _ _ U W) as [A B]. destruct (N' _ _ _ U' W') as [A' B'].
        rewrite A, B, A', B', El, Em, (picks_velocity _ sf phi psi i z Z Z' P Li). auto. }
      split; [split; [congruence|intros i Li; apply Q, Li]|]. simpl. splits; auto. split; [congruence|intros i Li; apply Q, Li].
    - destruct Po as (Em & El & Pv).
      destruct (nag_step_spec a w phi sf Zw) as (v1 & x & X & Lv & Lx & N); [congruence|].
      destruct (nag_step_spec b w' psi sf Zw') as (v2 & y & Y & Lv' & Ly & N'); [congruence|].
      rewrite X in E1. rewrite Y in E1'. injection E1 as <- <-. injection E1' as <- <-.
      assert (Q : forall i, i < m -> nth_error v2 i = nth_error v1 (s i) /\ nth_error y i = nth_error x (s i)).
      { intros i Li. destruct (picks_at _ _ i L Pw Li) as (u & U & U'). destruct (picks_at _ _ i O Pv Li) as (z & W & W').
        destruct (N _ _ _ U W) as (A & B & C). destruct (N' _ _ _ U' W') as (A' & B' & C').
        rewrite A, A', Em, (picks_velocity _ sf phi psi i z Z Z' P Li). split; auto.
        rewrite El, Em in B', C'. rewrite (picks_velocity _ sf phi psi i z Z Z' P Li) in B', C'.
        destruct (get phi (s i)) as [v|] eqn:G.
        - assert (G' : get psi i = Some v) by (rewrite (picks_get phi psi); auto).
          apply get_stores in G, G'; auto. rewrite (B _ G), (B' _ G'). reflexivity.
        - assert (G' : get psi i = None) by (rewrite (picks_get phi psi); auto).
          rewrite C, C'; auto; intros [v S]; apply get_stores in S; auto; congruence. }
      split; [split; [congruence|intros i Li; apply Q, Li]|]. simpl. splits; auto. split; [congruence|intros i Li; apply Q, Li].
    - destruct Po as (El & Pv).
      destruct (expands_exists phi K) as [l X]. destruct (expands_exists psi K') as [l' X'].
      destruct (adagrad_step_spec a w phi l sf Zw X) as (v1 & x & E & Lv & Lx & N); [congruence|].
      destruct (adagrad_step_spec b w' psi l' sf Zw' X') as (v2 & y & E' & Lv' & Ly & N'); [congruence|].
      rewrite E in E1. rewrite E' in E1'. injection E1 as <- <-. injection E1' as <- <-.
      assert (Q : forall i, i < m -> nth_error v2 i = nth_error v1 (s i) /\ nth_error y i = nth_error x (s i)).
      { intros i Li. destruct (picks_at _ _ i L Pw Li) as (u & U & U'). destruct (picks_at _ _ i O Pv Li) as (z & W & W').
        destruct (nth_error_lt l (s i)) as [c C]. { destruct X as [X _]. rewrite X, (proj2 Z). auto. }
        destruct (nth_error_lt l' i) as [c' C']. { destruct X' as [X' _]. rewrite X', (proj2 Z'). auto. }
        destruct (N _ _ _ _ C U W) as [A B]. destruct (N' _ _ _ _ C' U' W') as [A' B'].
        rewrite A, B, A', B', El. apply (expands_at_get phi l) in C; auto. apply (expands_at_get psi l') in C'; auto.
        rewrite (picks_get phi psi i) in C' by auto. subst c c'. auto. }
      split; [split; [congruence|intros i Li; apply Q, Li]|]. simpl. splits; auto. split; [congruence|intros i Li; apply Q, Li].
    - destruct Po as (E1b & E1p & E2b & E2p & El & P1 & P2). destruct O as [Oa Ob]. destruct O' as [Oa' Ob'].
      destruct (adam_step_spec a w phi sf Zw) as (p1 & p2 & x & X & Lp1 & Lp2 & Lx & N); [congruence..|].
      destruct (adam_step_spec b w' psi sf Zw') as (q1 & q2 & y & Y & Lq1 & Lq2 & Ly & N'); [congruence..|].
      rewrite X in E1. rewrite Y in E1'. injection E1 as <- <-. injection E1' as <- <-.
      assert (Q : forall i, i < m -> nth_error q1 i = nth_error p1 (s i) /\ nth_error q2 i = nth_error p2 (s i) /\
                                    nth_error y i = nth_error x (s i)).
      { intros i Li. destruct (picks_at _ _ i L Pw Li) as (u & U & U').
        destruct (picks_at _ _ i Oa P1 Li) as (c & C & C'). destruct (picks_at _ _ i Ob P2 Li) as (d & D & D').
        specialize (N _ _ _ _ C D U). specialize (N' _ _ _ _ C' D' U').
        rewrite (picks_get phi psi i) in N' by auto. rewrite (proj1 P) in N'.
        rewrite E1b, E1p, E2b, E2p, El in N'.
        destruct (get phi (s i)) as [v|]; destruct N as (A & B & G); destruct N' as (A' & B' & G');
          rewrite A, B, G, A', B', G'; auto. }
      split; [split; [congruence|intros i Li; apply Q, Li]|]. simpl. rewrite E1b, E1p, E2b, E2p, El.
      splits; auto; (split; [congruence|intros i Li; apply Q, Li]).
    - destruct Po as (E1b & E1p & E2b & El & P1 & P2). destruct O as [Oa Ob]. destruct O' as [Oa' Ob'].
      destruct (adamax_step_spec a w phi sf Zw) as (p1 & p2 & x & X & Lp1 & Lp2 & Lx & N); [congruence..|].
      destruct (adamax_step_spec b w' psi sf Zw') as (q1 & q2 & y & Y & Lq1 & Lq2 & Ly & N'); [congruence..|].
      rewrite X in E1. rewrite Y in E1'. injection E1 as <- <-. injection E1' as <- <-.
      assert (Q : forall i, i < m -> nth_error q1 i = nth_error p1 (s i) /\ nth_error q2 i = nth_error p2 (s i) /\
                                    nth_error y i = nth_error x (s i)).
      { intros i Li. destruct (picks_at _ _ i L Pw Li) as (u & U & U').
        destruct (picks_at _ _ i Oa P1 Li) as (c & C & C'). destruct (picks_at _ _ i Ob P2 Li) as (d & D & D').
        specialize (N _ _ _ _ C D U). specialize (N' _ _ _ _ C' D' U').
        rewrite (picks_get phi psi i) in N' by auto. rewrite (proj1 P) in N'.
        rewrite E1b, E1p, E2b, El in N'.
        destruct (get phi (s i)) as [v|]; destruct N as (A & B & G); destruct N' as (A' & B' & G');
          rewrite A, B, G, A', B', G'; auto. }
      split; [split; [congruence|intros i Li; apply Q, Li]|]. simpl. rewrite E1b, E1p, E2b, El.
      splits; auto; (split; [congruence|intros i Li; apply Q, Li]).
  Qed.

  Theorem picks_train h : forall h' o o' w w', well_sized n h -> well_sized m h' -> picks_history s m h h' ->
    length w = n -> opt_sized n o -> picks s m w w' -> picks_opt s m o o' ->
    exists o1 w1 o1' w1', train LibOptimiser h o w = Ret (o1, w1) /\ train LibOptimiser h' o' w' = Ret (o1', w1') /\
      length w1 = n /\ picks s m w1 w1' /\ picks_opt s m o1 o1'.
  Proof.
    induction h as [|[phi e] h IH]; intros [|[psi e'] h'] o o' w w' Z Z' Ph L O Pw Po; try solve [inversion Ph].
    - exists o, w, o', w'. simpl. auto.
    - inversion_clear Ph as [|? ? ? ? [Es Pf] Pr]. simpl in Es, Pf. subst e'.
      inversion_clear Z as [|? ? Zp Zh]. inversion_clear Z' as [|? ? Zp' Zh']. cbn [fst] in *.
      destruct (picks_step o o' w w' phi psi e) as (o1 & w1 & o1' & w1' & E & E' & L1 & O1 & P1 & Q1); auto.
      cbn [train o_step_scaled LibOptimiser]. rewrite E, E'. apply IH; auto.
  Qed.
End Locality.
