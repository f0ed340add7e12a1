(** When the order of the samples matters. Facts for C98. *)
From Coq Require Import List Arith ZArith Lia Permutation Reals Lra.
From Verif Require Import Base Scalar ScalarR HMap NdArray VecFacts Features Spec FeatureFacts
  Optim OptimSpec OptimFacts OptimReal Lfa LfaSpec LfaFacts LfaReal HeavyBall AdagradFit FeatureMore.
Import ListNotations.

(** ** Steps that commute may be permuted *)

Lemma ofold_permuted {A B} (f : A -> B -> outcome A) (Inv : A -> Prop) (Q : B -> Prop) (P : B -> B -> Prop) :
  (forall x y, P x y -> P y x) ->
  (forall a x a', Inv a -> Q x -> f a x = Ret a' -> Inv a') ->
  (forall a x y, Inv a -> Q x -> Q y -> P x y -> (let* a1 := f a x in f a1 y) = (let* a1 := f a y in f a1 x)) ->
  forall l l', Permutation l l' -> Forall Q l -> ForallOrdPairs P l ->
  forall a, Inv a -> ofold f l a = ofold f l' a.
Proof.
  intros Sym Keep Comm.
  assert (Tr : forall l l', Permutation l l' -> ForallOrdPairs P l -> ForallOrdPairs P l').
  { induction 1 as [|x l l' Pm IH|x y l|l l1 l2 P1 IH1 P2 IH2]; intros O; auto.
    - inversion O as [|? ? Fx Ol]; subst. constructor; [|auto]. eapply Permutation_Forall; eauto.
    - inversion O as [|? ? Fy Ol]; subst. inversion Ol as [|? ? Fx Oll]; subst. inversion Fy; subst.
      constructor; [constructor; auto|constructor; auto]. }
  induction 1 as [|x l l' Pm IH|x y l|l l1 l2 P1 IH1 P2 IH2]; intros Fq O a Ia; auto.
  - inversion O as [|? ? Fx Ol]; subst. inversion Fq; subst. cbn [ofold]. destruct (f a x) as [a1|] eqn:E; cbn [obind]; auto.
    apply IH; eauto.
  - inversion O as [|? ? Fy Ol]; subst. inversion Fy; subst. inversion Fq as [|? ? Qy Fq']; subst. inversion Fq'; subst.
    pose proof (Comm a y x Ia) as C. cbn [ofold].
    destruct (f a y) as [a1|] eqn:E1; destruct (f a x) as [a2|] eqn:E2; cbn [obind] in *; auto.
    + rewrite C by auto. reflexivity.
    + rewrite C by auto. reflexivity.
    + rewrite <- C by auto. reflexivity.
  - rewrite IH1 by auto. apply IH2; [eapply Permutation_Forall; eauto|eauto|auto].
Qed.

(** ** Disjoint sparse features, any scalar type *)

Section Disjoint.
  Context {F : Type} `{Scalar F}.

  (** No index is stored by both. *)
  Definition apart (a b : SparseActivations F) : Prop := forall i, ~ (In i (hm_keys (sa_acts a)) /\ In i (hm_keys (sa_acts b))).

  Lemma vupd_other (w : list F) i f w' j : vupd w i f = Ret w' -> i <> j -> nth_error w' j = nth_error w j.
  Proof. intros E N. apply vupd_Ret in E. destruct E as (_ & _ & E). rewrite E. destruct (Nat.eqb_spec j i); congruence. Qed.

  Lemma vupd_comm (f g : F -> F) i j : i <> j -> forall w,
    (let* w1 := vupd w i f in vupd w1 j g) = (let* w1 := vupd w j g in vupd w1 i f).
  Proof.
    intros N w. destruct (vupd w i f) as [w1|] eqn:E1; destruct (vupd w j g) as [w2|] eqn:E2; cbn [obind].
    - pose proof (vupd_Ret _ _ _ _ E1) as (Li & L1 & N1). pose proof (vupd_Ret _ _ _ _ E2) as (Lj & L2 & N2).
      destruct (vupd_lt g w1 j ltac:(lia)) as (w3 & -> & L3 & N3). destruct (vupd_lt f w2 i ltac:(lia)) as (w4 & -> & L4 & N4).
      f_equal. apply nth_error_ext. intros k. rewrite N3, N4, N1, N2.
      destruct (Nat.eqb_spec k j); destruct (Nat.eqb_spec k i); subst; congruence.
    - destruct (Nat.lt_ge_cases j (length w)) as [L|L]; [destruct (vupd_lt g w j L) as (? & ? & _); congruence|].
      apply vupd_ge. apply vupd_Ret in E1. lia.
    - destruct (Nat.lt_ge_cases i (length w)) as [L|L]; [destruct (vupd_lt f w i L) as (? & ? & _); congruence|].
      symmetry. apply vupd_ge. apply vupd_Ret in E2. lia.
    - reflexivity.
  Qed.

  Let adds (m : hmap F) (al : F) (w : list F) : outcome (list F) :=
    ofold (fun w kv => vupd w (fst kv) (fun x => fadd x (fmul al (snd kv)))) m w.

  Lemma adds_one m al i f : ~ In i (hm_keys m) -> forall w,
    (let* w1 := vupd w i f in adds m al w1) = (let* w1 := adds m al w in vupd w1 i f).
  Proof.
    induction m as [|[j v] m IH]; intros N w; cbn [adds ofold fst snd obind].
    - unfold adds. cbn [ofold]. destruct (vupd w i f); reflexivity.
    - unfold adds in *. cbn [ofold fst snd]. cbn [hm_keys map fst In] in N.
      set (g := fun x => fadd x (fmul al v)).
      transitivity (let* w1 := (let* w1 := vupd w i f in vupd w1 j g) in ofold (fun w kv => vupd w (fst kv) (fun x => fadd x (fmul al (snd kv)))) m w1).
      { destruct (vupd w i f); reflexivity. }
      rewrite vupd_comm by (intros ->; apply N; left; reflexivity). destruct (vupd w j g) as [w2|]; cbn [obind]; [|reflexivity].
      apply IH. intros X. apply N. right. exact X.
  Qed.

  Lemma adds_comm m al m' al' : (forall i, ~ (In i (hm_keys m) /\ In i (hm_keys m'))) -> forall w,
    (let* w1 := adds m al w in adds m' al' w1) = (let* w1 := adds m' al' w in adds m al w1).
  Proof.
    induction m as [|[j v] m IH]; intros D w.
    - unfold adds at 1 4. cbn [ofold obind]. destruct (adds m' al' w); reflexivity.
    - set (g := fun x => fadd x (fmul al v)).
      assert (E : forall w, adds ((j, v) :: m) al w = (let* w1 := vupd w j g in adds m al w1)) by reflexivity.
      rewrite E. transitivity (let* w1 := vupd w j g in (let* w2 := adds m' al' w1 in adds m al w2)).
      { destruct (vupd w j g); cbn [obind]; [|reflexivity]. apply IH. intros i [X Y]. apply (D i). split; [right; exact X|exact Y]. }
      transitivity (let* w2 := (let* w1 := vupd w j g in adds m' al' w1) in adds m al w2).
      { destruct (vupd w j g); reflexivity. }
      rewrite adds_one by (intros X; apply (D j); split; [left; reflexivity|exact X]).
      destruct (adds m' al' w); cbn [obind]; auto.
  Qed.

  Lemma adds_other m al : forall w w', adds m al w = Ret w' ->
    length w' = length w /\ forall i, ~ In i (hm_keys m) -> nth_error w' i = nth_error w i.
  Proof.
    induction m as [|[j v] m IH]; intros w w' E.
    - inversion E. auto.
    - unfold adds in *. cbn [ofold fst snd] in E. destruct (vupd w j _) as [w1|] eqn:U; cbn [obind] in E; [|discriminate].
      destruct (IH _ _ E) as [L N]. pose proof (vupd_Ret _ _ _ _ U) as (_ & L1 & _). split; [congruence|].
      intros i X. cbn [hm_keys map fst In] in X. rewrite N by (intros Y; apply X; right; exact Y). apply (vupd_other _ _ _ _ _ U). intros ->. apply X. left. reflexivity.
  Qed.

  Lemma dot_sparse_local (sa : SparseActivations F) w w' :
    (forall i, In i (hm_keys (sa_acts sa)) -> nth_error w' i = nth_error w i) -> dot_sparse sa w' = dot_sparse sa w.
  Proof.
    unfold dot_sparse. generalize (@fzero F _). induction (sa_acts sa) as [|[j v] m IH]; intros z E; cbn [ofold fst snd]; [reflexivity|].
    unfold vget at 1 3. rewrite E by (left; reflexivity). destruct (nth_error w j); cbn [obind]; [|reflexivity].
    apply IH. intros i X. apply E. right. exact X.
  Qed.

  (** Optimisers without state whose step adds a multiple of the features. *)
  Definition adds_features (o : Optimiser F F) (lr : F) (c : Features F -> F -> F) : Prop :=
    forall w phi e, o_step_scaled o lr w phi e = (let* w' := scaled_addto phi (c phi e) w in Ret (lr, w', Ok tt)).

  Definition updates {I} (c : s_call F I) : Prop := match c with SEvaluate _ => False | _ => True end.
  Definition input_of {I} (c : s_call F I) : I := match c with SEvaluate x | SUpdate x _ | SUpdateWith x _ => x end.

  (** Both inputs have sparse features, and share none. *)
  Definition apart_calls {I} (b : Basis F I) (c c' : s_call F I) : Prop := exists sa sa',
    b_project b (input_of c) = Ret (Ok (Sparse sa)) /\ b_project b (input_of c') = Ret (Ok (Sparse sa')) /\ apart sa sa'.

  Section Rule.
    Context {I : Type} (o : Optimiser F F) (lr : F) (cf : Features F -> F -> F) (Rule : adds_features o lr cf).
    Context (b : Basis F I).

    Let act (c : s_call F I) (sa : SparseActivations F) (w : list F) : outcome F :=
      match c with
      | SEvaluate _ => Panic
      | SUpdate _ e => Ret (cf (Sparse sa) e)
      | SUpdateWith _ f => let* v := dot_sparse sa w in Ret (cf (Sparse sa) (f (Sparse sa) v))
      end.

    Lemma do_act c sa w : updates c -> b_project b (input_of c) = Ret (Ok (Sparse sa)) ->
      s_do o (MkLFA b w lr) c = (let* k := act c sa w in let* w' := adds (sa_acts sa) k w in Ret (MkLFA b w' lr)).
    Proof.
      intros U P. destruct c as [x|x e|x f]; [contradiction| |]; cbn [input_of] in P; unfold s_do, omap, act.
      - unfold s_update. cbn [lfa_basis]. rewrite P. cbn [obind lfa_optimiser lfa_weights]. rewrite Rule. cbn [scaled_addto]. fold adds.
        cbn [obind]. unfold adds. destruct (ofold _ _ w); reflexivity.
      - unfold s_update_with. cbn [lfa_basis]. rewrite P. cbn [obind lfa_optimiser lfa_weights dot].
        destruct (dot_sparse sa w) as [v|]; cbn [obind]; [|reflexivity]. rewrite Rule. cbn [scaled_addto]. unfold adds.
        destruct (ofold _ _ w); reflexivity.
    Qed.

    Lemma act_local c sa w w' :
      (forall i, In i (hm_keys (sa_acts sa)) -> nth_error w' i = nth_error w i) -> act c sa w' = act c sa w.
    Proof. intros E. destruct c as [x|x e|x f]; unfold act; auto. rewrite (dot_sparse_local sa w w' E). reflexivity. Qed.

    Lemma apart_comm w c c' : updates c -> updates c' -> apart_calls b c c' ->
      (let* a1 := s_do o (MkLFA b w lr) c in s_do o a1 c') = (let* a1 := s_do o (MkLFA b w lr) c' in s_do o a1 c).
    Proof.
      intros U U' (sa & sa' & P & P' & D). rewrite (do_act c sa w U P), (do_act c' sa' w U' P').
      pose proof (adds_comm (sa_acts sa)) as C.
      assert (A : forall k w1, adds (sa_acts sa) k w = Ret w1 -> act c' sa' w1 = act c' sa' w).
      { intros k w1 E. apply act_local. intros i X. apply (adds_other _ _ _ _ E). intros Y. apply (D i). auto. }
      assert (A' : forall k w1, adds (sa_acts sa') k w = Ret w1 -> act c sa w1 = act c sa w).
      { intros k w1 E. apply act_local. intros i X. apply (adds_other _ _ _ _ E). intros Y. apply (D i). auto. }
      destruct (act c sa w) as [k|] eqn:K; destruct (act c' sa' w) as [k'|] eqn:K'; cbn [obind].
      - specialize (C k (sa_acts sa') k' D w).
        destruct (adds (sa_acts sa) k w) as [w1|] eqn:E; destruct (adds (sa_acts sa') k' w) as [w2|] eqn:E'; cbn [obind] in *; auto.
        + rewrite (do_act c' sa' w1 U' P'), (do_act c sa w2 U P), (A _ _ E), (A' _ _ E'). cbn [obind]. rewrite C. reflexivity.
        + rewrite (do_act c' sa' w1 U' P'), (A _ _ E). cbn [obind]. rewrite C. reflexivity.
        + rewrite (do_act c sa w2 U P), (A' _ _ E'). cbn [obind]. rewrite <- C. reflexivity.
      - destruct (adds (sa_acts sa) k w) as [w1|] eqn:E; cbn [obind]; auto.
        rewrite (do_act c' sa' w1 U' P'), (A _ _ E). reflexivity.
      - destruct (adds (sa_acts sa') k' w) as [w2|] eqn:E'; cbn [obind]; auto.
        rewrite (do_act c sa w2 U P), (A' _ _ E'). reflexivity.
      - reflexivity.
    Qed.

    Lemma do_keeps a c a' : (exists w, a = MkLFA b w lr) -> s_do o a c = Ret a' -> exists w, a' = MkLFA b w lr.
    Proof.
      intros [w ->] E. destruct c as [x|x e|x f]; unfold s_do, omap in E.
      - destruct (s_evaluate _ x); cbn [obind] in E; inversion E; eauto.
      - unfold s_update in E. cbn [lfa_basis lfa_optimiser lfa_weights] in E. destruct (b_project b x) as [[phi|er]|]; cbn [obind] in E; [| |discriminate].
        + rewrite Rule in E. destruct (scaled_addto _ _ w); cbn [obind] in E; inversion E. eexists. reflexivity.
        + inversion E. eauto.
      - unfold s_update_with in E. cbn [lfa_basis lfa_optimiser lfa_weights] in E. destruct (b_project b x) as [[phi|er]|]; cbn [obind] in E; [| |discriminate].
        + destruct (dot phi w); cbn [obind] in E; [|discriminate]. rewrite Rule in E. destruct (scaled_addto _ _ w); cbn [obind] in E; inversion E. eexists. reflexivity.
        + inversion E. eauto.
    Qed.

    Theorem apart_permuted cs cs' w : Permutation cs cs' -> Forall updates cs -> ForallOrdPairs (apart_calls b) cs ->
      s_run o cs (MkLFA b w lr) = s_run o cs' (MkLFA b w lr).
    Proof.
      intros Pm U O. unfold s_run.
      apply (ofold_permuted (s_do o) (fun a => exists w, a = MkLFA b w lr) updates (apart_calls b)); eauto.
      - intros x y (sa & sa' & P & P' & D). exists sa', sa. splits; auto. intros i [X Y]. apply (D i). auto.
      - intros a x a' J _. apply do_keeps, J.
      - intros a x y [w0 ->] Ux Uy D. apply apart_comm; auto.
    Qed.
  End Rule.

  Lemma sgd_adds lr : adds_features SGD lr (fun _ e => fmul lr e).
  Proof. intros w phi e. reflexivity. Qed.
  Lemma isgd_adds lr : adds_features ISGD lr (fun phi e => fmul (isgd_compute_lr lr phi) e).
  Proof. intros w phi e. reflexivity. Qed.
End Disjoint.

(** ** Over the reals *)

Local Open Scope R_scope.

Lemma inner_sym n phi psi : sized n phi -> sized n psi -> inner phi psi = inner psi phi.
Proof. intros [_ Z] [_ Z']. unfold inner. rewrite Z, Z'. apply sigma_ext. intros i _. ring. Qed.

(** The basis takes the input of a sample to features of the right size. *)
Definition accepted {I} (b : Basis R I) (n : nat) (p : I * R) : Prop :=
  exists phi, b_project b (fst p) = Ret (Ok phi) /\ sized n phi.

(** The features of two samples are orthogonal. *)
Definition orthogonal {I} (b : Basis R I) (p q : I * R) : Prop :=
  forall phi psi, b_project b (fst p) = Ret (Ok phi) -> b_project b (fst q) = Ret (Ok psi) ->
    inner phi psi = 0 /\ inner psi phi = 0.

Definition give_call {I} (p : I * R) : s_call R I := SUpdate (fst p) (snd p).

Section Linear.
  Context {I : Type} (o : Optimiser R R) (lr : R) (c : Features R -> R) (Rule : linear_rule o lr c) (b : Basis R I).

  Lemma give_step w x e phi : b_project b x = Ret (Ok phi) -> sized (length w) phi ->
    exists w', s_do o (MkLFA b w lr) (give_call (x, e)) = Ret (MkLFA b w' lr) /\ length w' = length w /\
      forall i, at_ w' i = at_ w i + c phi * e * coeff phi i.
  Proof.
    intros P Z. destruct (Rule w phi e Z) as (w' & E & L & N). exists w'. splits; auto.
    unfold s_do, give_call, omap, s_update. cbn [lfa_basis lfa_optimiser lfa_weights fst snd]. rewrite P. cbn [obind]. rewrite E. reflexivity.
  Qed.

  Let Inv (n : nat) (a : ScalarLFA R I R) : Prop := exists w, a = MkLFA b w lr /\ length w = n.

  Theorem given_permuted h h' w : Permutation h h' -> Forall (accepted b (length w)) h ->
    s_run o (map give_call h) (MkLFA b w lr) = s_run o (map give_call h') (MkLFA b w lr).
  Proof.
    intros Pm A. unfold s_run.
    apply (ofold_permuted (s_do o) (Inv (length w)) (fun k => exists p, k = give_call p /\ accepted b (length w) p) (fun _ _ => True)); auto.
    - intros a k a' (w0 & -> & L0) ([x e] & -> & phi & P & Z) E. cbn [fst] in P. rewrite <- L0 in Z.
      destruct (give_step w0 x e phi P Z) as (w1 & E1 & L1 & _). rewrite E1 in E. inversion E. exists w1. split; congruence.
    - intros a k k' (w0 & -> & L0) ([x e] & -> & phi & P & Z) ([x' e'] & -> & psi & P' & Z') _. cbn [fst] in P, P'. rewrite <- L0 in Z, Z'.
      destruct (give_step w0 x e phi P Z) as (w1 & E1 & L1 & N1). destruct (give_step w0 x' e' psi P' Z') as (w2 & E2 & L2 & N2).
      rewrite E1, E2. cbn [obind]. rewrite <- L1 in Z'. rewrite <- L2 in Z.
      destruct (give_step w1 x' e' psi P' Z') as (w3 & E3 & L3 & N3). destruct (give_step w2 x e phi P Z) as (w4 & E4 & L4 & N4).
      rewrite E3, E4. do 2 f_equal. apply at_ext; [congruence|]. intros i _. rewrite N3, N4, N1, N2. ring.
    - apply Permutation_map, Pm.
    - apply Forall_map. eapply Forall_impl; [|exact A]. intros p Ap. exists p. auto.
    - clear. induction (map give_call h) as [|k l IH]; constructor; auto. apply Forall_forall. auto.
    - exists w. auto.
  Qed.

  (** Two samples, in both orders. *)
  Lemma pair_orders w x y x' y' phi psi : b_project b x = Ret (Ok phi) -> b_project b x' = Ret (Ok psi) ->
    sized (length w) phi -> sized (length w) psi ->
    exists u v, s_run o [fit_call (x, y); fit_call (x', y')] (MkLFA b w lr) = Ret (MkLFA b u lr) /\
      s_run o [fit_call (x', y'); fit_call (x, y)] (MkLFA b w lr) = Ret (MkLFA b v lr) /\ length u = length w /\ length v = length w /\
      forall i, at_ u i - at_ v i = c phi * c psi * inner phi psi *
        ((y' - predict psi w) * coeff phi i - (y - predict phi w) * coeff psi i).
  Proof.
    intros P P' Z Z'. pose proof (inner_sym _ _ _ Z Z') as Sy.
    destruct (fit_step o lr c Rule b w x y phi P Z) as (w1 & E1 & L1 & _ & N1 & _).
    destruct (fit_step o lr c Rule b w x' y' psi P' Z') as (w2 & E2 & L2 & _ & N2 & _).
    pose proof (predict_shift phi psi _ w w1 N1) as Q1. pose proof (predict_shift psi phi _ w w2 N2) as Q2.
    rewrite <- L1 in Z'. rewrite <- L2 in Z.
    destruct (fit_step o lr c Rule b w1 x' y' psi P' Z') as (w3 & E3 & L3 & _ & N3 & _).
    destruct (fit_step o lr c Rule b w2 x y phi P Z) as (w4 & E4 & L4 & _ & N4 & _).
    exists w3, w4. unfold s_run. cbn [ofold]. rewrite E1, E2. cbn [obind]. rewrite E3, E4. cbn [obind]. splits; auto; try congruence.
    intros i. rewrite N3, N4, N1, N2, Q1, Q2, <- Sy. ring.
  Qed.

  Theorem pair_iff w x y x' y' phi psi : b_project b x = Ret (Ok phi) -> b_project b x' = Ret (Ok psi) ->
    sized (length w) phi -> sized (length w) psi ->
    s_run o [fit_call (x, y); fit_call (x', y')] (MkLFA b w lr) =
      s_run o [fit_call (x', y'); fit_call (x, y)] (MkLFA b w lr) <->
    c phi = 0 \/ c psi = 0 \/ inner phi psi = 0 \/
    forall i, (y' - predict psi w) * coeff phi i = (y - predict phi w) * coeff psi i.
  Proof.
    intros P P' Z Z'. destruct (pair_orders w x y x' y' phi psi P P' Z Z') as (u & v & -> & -> & Lu & Lv & D). split.
    - intros E. inversion E as [E1]. subst v.
      destruct (Req_dec (c phi) 0) as [|C1]; [auto|]. destruct (Req_dec (c psi) 0) as [|C2]; [auto|].
      destruct (Req_dec (inner phi psi) 0) as [|C3]; [auto|]. do 3 right. intros i. specialize (D i).
      assert (X : c phi * c psi * inner phi psi <> 0) by (repeat apply Rmult_integral_contrapositive_currified; auto).
      assert (Y : (y' - predict psi w) * coeff phi i - (y - predict phi w) * coeff psi i = 0); [|lra].
      apply Rmult_eq_reg_l with (2 := X). lra.
    - intros C. do 2 f_equal. apply at_ext; [congruence|]. intros i _. specialize (D i).
      assert (X : at_ u i - at_ v i = 0); [|lra]. rewrite D.
      destruct C as [->|[->|[->|C]]]; [ring|ring|ring|]. rewrite C. ring.
  Qed.

  Theorem orthogonal_permuted h h' w : Permutation h h' -> Forall (accepted b (length w)) h -> ForallOrdPairs (orthogonal b) h ->
    s_run o (map fit_call h) (MkLFA b w lr) = s_run o (map fit_call h') (MkLFA b w lr).
  Proof.
    intros Pm A O. unfold s_run.
    assert (M : forall (l : list (I * R)) (a : ScalarLFA R I R), ofold (s_do o) (map fit_call l) a = ofold (fun a p => s_do o a (fit_call p)) l a).
    { induction l as [|p l IH]; intros a; cbn [map ofold]; auto. destruct (s_do o a (fit_call p)); cbn [obind]; auto. }
    rewrite !M.
    apply (ofold_permuted (fun a p => s_do o a (fit_call p)) (Inv (length w)) (accepted b (length w)) (orthogonal b)); auto.
    - intros p q D phi psi P Q. destruct (D psi phi Q P). auto.
    - intros a [x y] a' (w0 & -> & L0) (phi & P & Z) E. cbn [fst] in P. rewrite <- L0 in Z.
      destruct (fit_step o lr c Rule b w0 x y phi P Z) as (w1 & E1 & L1 & _). rewrite E1 in E. inversion E. exists w1. split; congruence.
    - intros a [x y] [x' y'] (w0 & -> & L0) (phi & P & Z) (psi & P' & Z') D. cbn [fst] in P, P'. rewrite <- L0 in Z, Z'.
      pose proof (proj2 (pair_iff w0 x y x' y' phi psi P P' Z Z')) as X. unfold s_run in X. cbn [ofold] in X.
      assert (T : forall r : outcome (ScalarLFA R I R), (let* a := r in Ret a) = r) by (intros [|]; reflexivity).
      destruct (s_do o _ (fit_call (x, y))); destruct (s_do o _ (fit_call (x', y'))); cbn [obind] in *; rewrite ?T in X;
        apply X; right; right; left; apply (D phi psi P P').
    - exists w. auto.
  Qed.
End Linear.

(** Momentum, the errors being given. *)
Theorem momentum_orders m lr v w phi psi e e' : sized (length w) phi -> sized (length w) psi -> length v = length w ->
  exists v1 w1 v2 w2,
    train SGDMomentum [(phi, e); (psi, e')] (MkMomentum m lr v) w = Ret (MkMomentum m lr v1, w1) /\
    train SGDMomentum [(psi, e'); (phi, e)] (MkMomentum m lr v) w = Ret (MkMomentum m lr v2, w2) /\
    (w1 = w2 <-> lr * m = 0 \/ forall i, e * coeff phi i = e' * coeff psi i).
Proof.
  intros Z Z' L. destruct (momentum_heavy m lr v w phi e Z L) as (va & wa & Ea & La & Lwa & Na & Nwa).
  destruct (momentum_heavy m lr v w psi e' Z' L) as (vb & wb & Eb & Lb & Lwb & Nb & Nwb).
  rewrite <- Lwa in Z'. rewrite <- Lwb in Z.
  destruct (momentum_heavy m lr va wa psi e' Z' ltac:(congruence)) as (vc & wc & Ec & Lc & Lwc & Nc & Nwc).
  destruct (momentum_heavy m lr vb wb phi e Z ltac:(congruence)) as (vd & wd & Ed & Ld & Lwd & Nd & Nwd).
  exists vc, wc, vd, wd. cbn [train]. rewrite Ea, Eb. rewrite Ec, Ed. splits; auto.
  assert (D : forall i, at_ wc i - at_ wd i = lr * m * (e * coeff phi i - e' * coeff psi i)).
  { intros i. rewrite Nwc, Nwd, Nc, Nd, Nwa, Nwb, Na, Nb. ring. }
  split.
  - intros E. subst wd. destruct (Req_dec (lr * m) 0) as [|N]; [auto|]. right. intros i. specialize (D i).
    assert (Y : e * coeff phi i - e' * coeff psi i = 0); [|lra]. apply Rmult_eq_reg_l with (2 := N). lra.
  - intros C. apply at_ext; [congruence|]. intros i _. specialize (D i). assert (X : at_ wc i - at_ wd i = 0); [|lra].
    rewrite D. destruct C as [->|C]; [ring|]. rewrite C. ring.
Qed.

(** Adagrad's accumulator, the errors being given. *)
Lemma adagrad_acc_train lr : forall h acc w, well_sized (length w) h -> length acc = length w -> exists acc' w',
  train Adagrad h (MkAdagrad lr acc) w = Ret (MkAdagrad lr acc', w') /\ length acc' = length w /\
  forall i, at_ acc' i = at_ acc i + rsum (map (fun p => coeff (fst p) i * coeff (fst p) i * (snd p * snd p)) h).
Proof.
  induction h as [|[phi e] h IH]; intros acc w Wh L; cbn [train map].
  - exists acc, w. splits; auto. intros i. unfold rsum. cbn. ring.
  - inversion Wh as [|? ? Z Wh']; subst. cbn [fst] in Z. destruct (adagrad_R lr acc w phi e Z L) as (a1 & w1 & E & L1 & L2 & N & _).
    rewrite E. destruct (IH a1 w1) as (acc' & w' & E' & L' & N'); [rewrite L2; exact Wh'|congruence|].
    exists acc', w'. splits; [exact E'|congruence|]. intros i. rewrite N', N. unfold rsum. cbn [map fold_right fst snd]. ring.
Qed.

Theorem adagrad_acc_permuted lr h h' acc w : Permutation h h' -> well_sized (length w) h -> length acc = length w ->
  exists acc' w1 w2, train Adagrad h (MkAdagrad lr acc) w = Ret (MkAdagrad lr acc', w1) /\
    train Adagrad h' (MkAdagrad lr acc) w = Ret (MkAdagrad lr acc', w2).
Proof.
  intros Pm Wh L. destruct (adagrad_acc_train lr h acc w Wh L) as (a1 & w1 & E1 & L1 & N1).
  destruct (adagrad_acc_train lr h' acc w) as (a2 & w2 & E2 & L2 & N2); [eapply Permutation_Forall; eauto|auto|].
  exists a1, w1, w2. split; auto. rewrite E2. do 2 f_equal. f_equal. apply at_ext; [congruence|]. intros i _. rewrite N1, N2. f_equal.
  apply rsum_perm, Permutation_map, Permutation_sym, Pm.
Qed.
