(** Training does not see the iteration order of a hash map, bit for bit, except
    through ISGD's norm; and what steps do with vectors of the wrong size. Facts
    for C56 and C57. *)
From Coq Require Import List Arith ZArith Lia Permutation Reals Lra.
From Verif Require Import Base Scalar ScalarR HMap HMapFacts NdArray VecFacts Features Spec FeatureFacts FeatureMore
  FeatureLast Optim OptimSpec OptimFacts Lfa LfaSpec.
Import ListNotations.
Local Open Scope nat_scope.

(** ** Loops over permuted entries *)

Lemma ofold_perm {A B} (f : B -> nat * A -> outcome B) :
  (forall b x y, fst x <> fst y ->
     (let* b' := f b x in f b' y) = (let* b' := f b y in f b' x)) ->
  forall l l', Permutation l l' -> NoDup (map fst l) -> forall b, ofold f l b = ofold f l' b.
Proof.
  intros C l l' P. induction P; intros ND b; simpl; auto.
  - inversion ND; subst. destruct (f b x); simpl; auto.
  - simpl in ND. inversion ND as [|? ? N1 N2]; subst. inversion N2; subst.
    assert (Nxy : fst y <> fst x) by (intros E; apply N1; left; auto).
    specialize (C b y x Nxy). destruct (f b y) as [by_|] eqn:Ey, (f b x) as [bx|] eqn:Ex; simpl in *.
    + rewrite C. reflexivity.
    + rewrite C. reflexivity.
    + rewrite <- C. reflexivity.
    + reflexivity.
  - rewrite IHP1, IHP2; auto. eapply Permutation_NoDup; [|exact ND]. apply Permutation_map. auto.
Qed.

(** [l] with [v] at position [i]. *)
Fixpoint put {A} (l : list A) (i : nat) (v : A) : list A :=
  match l, i with
  | [], _ => []
  | _ :: l', O => v :: l'
  | x :: l', S j => x :: put l' j v
  end.

Section Put.
  Context {A : Type}.
  Implicit Types l : list A.

  Lemma put_length l : forall i v, length (put l i v) = length l.
  Proof. induction l; intros [|i] v; simpl; auto. Qed.

  Lemma put_other l : forall i j v, i <> j -> nth_error (put l i v) j = nth_error l j.
  Proof.
    induction l as [|x l IH]; intros [|i] [|j] v N; simpl; auto; lia.
  Qed.

  Lemma put_comm l : forall i j v u, i <> j -> put (put l i v) j u = put (put l j u) i v.
  Proof.
    induction l as [|x l IH]; intros [|i] [|j] v u N; simpl; try reflexivity; try lia. f_equal. apply IH. lia.
  Qed.

  Lemma vupd_put l : forall i f, vupd l i f =
    match nth_error l i with Some x => Ret (put l i (f x)) | None => Panic end.
  Proof.
    induction l as [|x l IH]; intros [|i] f; simpl; auto. rewrite IH. destruct (nth_error l i); auto.
  Qed.
End Put.

(** A step that reads and writes position [i] of three vectors. *)
Definition coordwise {A V} (g : V -> A -> A -> A -> A * A * A)
    (st : list A * list A * list A) (ia : nat * V) : outcome (list A * list A * list A) :=
  let '(m1, m2, w) := st in
  let i := fst ia in
  match nth_error m1 i, nth_error m2 i, nth_error w i with
  | Some x1, Some x2, Some x =>
      let '(y1, y2, y) := g (snd ia) x1 x2 x in Ret (put m1 i y1, put m2 i y2, put w i y)
  | _, _, _ => Panic
  end.

Lemma coordwise_comm {A V} (g : V -> A -> A -> A -> A * A * A) st a b : fst a <> fst b ->
  (let* st' := coordwise g st a in coordwise g st' b) = (let* st' := coordwise g st b in coordwise g st' a).
Proof.
  intros N. destruct st as [[m1 m2] w]. unfold coordwise.
  destruct (nth_error m1 (fst a)) as [a1|] eqn:A1, (nth_error m2 (fst a)) as [a2|] eqn:A2,
    (nth_error w (fst a)) as [a3|] eqn:A3, (nth_error m1 (fst b)) as [b1|] eqn:B1,
    (nth_error m2 (fst b)) as [b2|] eqn:B2, (nth_error w (fst b)) as [b3|] eqn:B3;
    try destruct (g (snd a) a1 a2 a3) as [[ya1 ya2] ya3] eqn:Ga;
    try destruct (g (snd b) b1 b2 b3) as [[yb1 yb2] yb3] eqn:Gb; simpl; auto;
    rewrite ?(put_other m1 (fst a) (fst b)), ?(put_other m2 (fst a) (fst b)), ?(put_other w (fst a) (fst b)),
      ?(put_other m1 (fst b) (fst a)), ?(put_other m2 (fst b) (fst a)), ?(put_other w (fst b) (fst a)) by auto;
    rewrite ?A1, ?A2, ?A3, ?B1, ?B2, ?B3, ?Ga, ?Gb; auto.
  rewrite (put_comm m1), (put_comm m2), (put_comm w); auto.
Qed.

Section Order.
  Context {F : Type} `{Scalar F}.
  Implicit Types (phi psi : Features F) (w : list F) (o : lib_opt F).

  Lemma adam_coordwise d lr b1 b2 p1 p2 sf st ia : adam_coord d lr b1 b2 p1 p2 sf st ia =
    coordwise (fun a x1 x2 x =>
      let g := fmul a sf in
      let y1 := fadd (if d then fmul b1 x1 else x1) (fmul (fsub fone b1) g) in
      let y2 := fadd (if d then fmul b2 x2 else x2) (fmul (fmul (fsub fone b2) g) g) in
      (y1, y2, fadd x (fdiv (fmul lr (fdiv y1 (fsub fone p1))) (fadd (fsqrt (fdiv y2 (fsub fone p2))) EPS)))) st ia.
  Proof.
    destruct st as [[m1 m2] w], ia as [i a]. cbn [adam_coord coordwise fst snd]. unfold vget, vset.
    destruct (nth_error m1 i) as [x1|] eqn:E1; cbn [obind]; auto.
    destruct (nth_error m2 i) as [x2|] eqn:E2; cbn [obind]; auto.
    rewrite vupd_put, E1. cbn [obind]. rewrite vupd_put, E2. cbn [obind].
    rewrite vupd_put. destruct (nth_error w i) as [x|]; reflexivity.
  Qed.

  Lemma adamax_coordwise d lr b1 b2 p1 sf st ia : adamax_coord d lr b1 b2 p1 sf st ia =
    coordwise (fun a x1 x2 x =>
      let g := fmul a sf in
      let y1 := fadd (if d then fmul b1 x1 else x1) (fmul (fsub fone b1) g) in
      let y2 := fmax (if d then fmul b2 x2 else x2) (fabs g) in
      (y1, y2, fadd x (fdiv (fmul lr (fdiv y1 (fsub fone p1))) (fadd y2 EPS)))) st ia.
  Proof.
    destruct st as [[m1 m2] w], ia as [i a]. cbn [adamax_coord coordwise fst snd]. unfold vget, vset.
    destruct (nth_error m1 i) as [x1|] eqn:E1; cbn [obind]; auto.
    destruct (nth_error m2 i) as [x2|] eqn:E2; cbn [obind]; auto.
    rewrite vupd_put, E1. cbn [obind]. rewrite vupd_put, E2. cbn [obind].
    rewrite vupd_put. destruct (nth_error w i) as [x|]; reflexivity.
  Qed.

  Lemma ofold_ext {A B} (f g : B -> A -> outcome B) : (forall b a, f b a = g b a) ->
    forall l b, ofold f l b = ofold g l b.
  Proof. intros E. induction l as [|a l IH]; intros b; simpl; auto. rewrite E. destruct (g b a); simpl; auto. Qed.

  Lemma velocity_order m v phi psi sf : keyed phi -> same phi psi ->
    velocity_update m v phi sf = velocity_update m v psi sf.
  Proof.
    destruct phi as [a|a], psi as [b|b]; simpl; try tauto; [intros _ ->; auto|].
    intros K [_ P]. apply (upd_loop_perm (fun y x => fadd x (fmul y sf))); auto.
  Qed.

  Lemma scaled_addto_order phi psi a w : keyed phi -> same phi psi -> scaled_addto phi a w = scaled_addto psi a w.
  Proof. intros K Sm. destruct (same_observations phi psi K Sm) as (_ & _ & _ & _ & _ & _ & E & _). apply E. Qed.

  Lemma adagrad_order lr sf m m' : hm_ok m -> Permutation m m' -> forall ss i w,
    adagrad_sparse lr sf m i ss w = adagrad_sparse lr sf m' i ss w.
  Proof.
    intros K P. induction ss as [|s ss IH]; intros i w; simpl; auto.
    unfold get_or_zero. rewrite (hm_get_perm m m' i P K).
    destruct (vupd w i _) as [w1|]; simpl; auto. rewrite IH. reflexivity.
  Qed.

  Definition not_isgd o : Prop := match o with LISGD _ => False | _ => True end.

  Theorem step_order o w phi psi sf : not_isgd o -> keyed phi -> same phi psi ->
    o_step_scaled LibOptimiser o w phi sf = o_step_scaled LibOptimiser o w psi sf /\
    o_step LibOptimiser o w phi = o_step LibOptimiser o w psi.
  Proof.
    intros NI K Sm.
    assert (St : forall sf, lib_step_scaled o w phi sf = lib_step_scaled o w psi sf).
    { clear sf. intros sf. destruct o as [lr|lr|s|s|s|s|s]; simpl; try tauto.
      - unfold sgd_step_scaled. rewrite (scaled_addto_order phi psi) by auto. reflexivity.
      - unfold momentum_step_scaled. rewrite (velocity_order _ _ phi psi) by auto. reflexivity.
      - unfold nag_step_scaled. rewrite (velocity_order _ _ phi psi) by auto.
        destruct (velocity_update _ _ psi sf) as [v|]; simpl; auto.
        destruct (scaled_add _ _ _) as [w'|]; simpl; auto.
        rewrite (scaled_addto_order phi psi) by auto. reflexivity.
      - unfold adagrad_step_scaled. destruct phi as [a|a], psi as [b|b]; simpl in Sm; try tauto; [subst; auto|].
        destruct Sm as [_ P]. rewrite (adagrad_order _ _ (sa_acts a) (sa_acts b)) by auto. reflexivity.
      - unfold adam_step_scaled. destruct phi as [a|a], psi as [b|b]; simpl in Sm; try tauto; [subst; auto|].
        destruct Sm as [_ P]. rewrite !(ofold_ext _ _ (adam_coordwise _ _ _ _ _ _ _)).
        rewrite (ofold_perm _ (coordwise_comm _) _ _ P); auto.
      - unfold adamax_step_scaled. destruct phi as [a|a], psi as [b|b]; simpl in Sm; try tauto; [subst; auto|].
        destruct Sm as [_ P]. rewrite !(ofold_ext _ _ (adamax_coordwise _ _ _ _ _ _)).
        rewrite (ofold_perm _ (coordwise_comm _) _ _ P); auto. }
    split; [apply St|]. destruct o as [lr|lr|s|s|s|s|s]; simpl; try tauto; try apply (St fone).
    unfold sgd_step. rewrite (scaled_addto_order phi psi) by auto. reflexivity.
  Qed.

  (** Histories that differ in hash order only. *)
  Definition reordered (h h' : history F) : Prop :=
    Forall2 (fun p q => keyed (fst p) /\ same (fst p) (fst q) /\ snd p = snd q) h h'.

  Lemma step_not_isgd o w phi sf o' w' r : not_isgd o ->
    o_step_scaled LibOptimiser o w phi sf = Ret (o', w', r) -> not_isgd o'.
  Proof.
    destruct o; simpl; try tauto; unfold lift_step;
      intros _ E; match type of E with context [obind ?x _] => destruct x as [[[? ?] ?]|] end;
      simpl in E; try discriminate; injection E as <- <- <-; exact I.
  Qed.

  Theorem train_order h h' : reordered h h' -> forall o w, not_isgd o ->
    train LibOptimiser h o w = train LibOptimiser h' o w.
  Proof.
    induction 1 as [|[phi e] [psi e'] h h' (K & Sm & Ee) R IH]; intros o w NI; simpl; auto.
    simpl in *. subst e'.
    pose proof (proj1 (step_order o w phi psi e NI K Sm)) as St. simpl in St. rewrite St.
    destruct (lib_step_scaled o w psi e) as [[[o' w'] r]|] eqn:E; auto.
    apply IH. eapply step_not_isgd; eauto.
  Qed.

  (** Two approximators whose bases project the same features, in different
      layouts, keep the same weights and optimiser state. *)
  Definition same_projection {I} (b b' : Basis F I) : Prop :=
    forall x, match b_project b x, b_project b' x with
              | Panic, Panic => True
              | Ret (Err e), Ret (Err e') => e = e'
              | Ret (Ok phi), Ret (Ok psi) => keyed phi /\ same phi psi
              | _, _ => False
              end.

  Theorem lfa_order {I} (b b' : Basis F I) : same_projection b b' -> forall h o w, not_isgd o ->
    match s_train LibOptimiser h (MkLFA b w o), s_train LibOptimiser h (MkLFA b' w o) with
    | Ret a, Ret a' => lfa_weights a = lfa_weights a' /\ lfa_optimiser a = lfa_optimiser a'
    | Panic, Panic => True
    | _, _ => False
    end.
  Proof.
    intros SP. unfold s_train, s_run. induction h as [|[x e] h IH]; intros o w NI; simpl; auto.
    unfold s_update. cbn [lfa_basis lfa_weights lfa_optimiser]. specialize (SP x).
    destruct (b_project b x) as [[phi|er]|], (b_project b' x) as [[psi|er']|]; simpl; try tauto.
    - destruct SP as [K Sm]. pose proof (proj1 (step_order o w phi psi e NI K Sm)) as St. simpl in St. rewrite St.
      destruct (lib_step_scaled o w psi e) as [[[o' w'] r]|] eqn:E; simpl; auto.
      apply IH. eapply step_not_isgd; eauto.
    - apply IH. auto.
  Qed.
End Order.

(** ISGD over the reals. *)
Lemma isgd_lr_order lr (phi psi : Features R) : keyed phi -> same phi psi ->
  isgd_compute_lr lr phi = isgd_compute_lr lr psi.
Proof.
  destruct phi as [a|a], psi as [b|b]; simpl; try tauto; [intros _ ->; auto|].
  intros _ [_ P]. unfold isgd_compute_lr. cbn [ffold].
  assert (E : forall l l', Permutation l l' -> forall z : R,
    fold_left (fun acc x => fadd acc (fmul x x)) l z = fold_left (fun acc x => fadd acc (fmul x x)) l' z).
  { clear. induction 1; intros z; simpl; auto.
    - match goal with |- fold_left _ _ ?a = fold_left _ _ ?b => replace a with b; [reflexivity|] end. to_R. lra.
    - rewrite IHPermutation1. auto. }
  rewrite (E _ _ (Permutation_map snd P)). reflexivity.
Qed.

Theorem train_order_R h h' : reordered h h' -> forall (o : lib_opt R) w,
  train LibOptimiser h o w = train LibOptimiser h' o w.
Proof.
  induction 1 as [|[phi e] [psi e'] h h' (K & Sm & Ee) R IH]; intros o w; simpl; auto.
  simpl in *. subst e'.
  assert (St : lib_step_scaled o w phi e = lib_step_scaled o w psi e).
  { destruct o as [lr|lr|s|s|s|s|s];
      try (match goal with |- lib_step_scaled ?o _ _ _ = _ => exact (proj1 (step_order o w phi psi e I K Sm)) end).
    cbn [lib_step_scaled o_step_scaled ISGD]. unfold isgd_step_scaled. rewrite (isgd_lr_order lr phi psi), (scaled_addto_order phi psi) by auto.
    reflexivity. }
  rewrite St. destruct (lib_step_scaled o w psi e) as [[[o' w'] r]|]; auto.
Qed.
