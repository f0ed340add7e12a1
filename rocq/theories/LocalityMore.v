(** Consequences of Locality.v: one coordinate alone, stacked features,
    relabelled approximators over the reals (C69). *)
From Coq Require Import List Arith ZArith Lia Permutation Bool Reals Lra.
From Verif Require Import Base Scalar ScalarR HMap HMapFacts NdArray VecFacts Features Spec FeatureFacts
  Optim OptimSpec OptimFacts OptimReal Lfa LfaSpec LfaFacts LfaReal OptimOrder Locality.
Import ListNotations.

Section More.
  Context {F : Type} `{Scalar F}.
  Implicit Types (phi psi : Features F) (o : lib_opt F).

  Lemma picks_zeros s m n : (forall i, i < m -> s i < n) -> picks s m (zeros n : list F) (zeros m).
  Proof.
    intros B. split; [apply repeat_length|]. intros i Li. unfold zeros.
    rewrite !nth_error_repeat; auto.
  Qed.

  Lemma construct_picks s m n (p : hyper F) : (forall i, i < m -> s i < n) -> not_isgd (construct n p) ->
    picks_opt s m (construct n p) (construct m p).
  Proof.
    intros B N. pose proof (picks_zeros s m n B) as Z. destruct p; simpl in *; try contradiction; splits; auto.
  Qed.

  Theorem subset_train s m n (p : hyper F) h h' w w' : (forall i, i < m -> s i < n) -> not_isgd (construct n p) ->
    well_sized n h -> well_sized m h' -> picks_history s m h h' -> length w = n -> picks s m w w' ->
    exists o1 w1 o1' w1', train LibOptimiser h (construct n p) w = Ret (o1, w1) /\
      train LibOptimiser h' (construct m p) w' = Ret (o1', w1') /\
      length w1 = n /\ picks s m w1 w1' /\ picks_opt s m o1 o1'.
  Proof.
    intros B N Z Z' Ph L Pw. apply (picks_train s m n B); auto; [apply construct_sized|apply construct_picks; auto].
  Qed.

  (** *** One coordinate *)

  (** Feature [i] of [phi] and feature [j] of [psi] read the same. *)
  Definition alike i j phi psi : Prop :=
    is_sparse psi = is_sparse phi /\ forall v, stores phi i v <-> stores psi j v.

  Definition only i phi : Features F :=
    match phi with
    | Dense _ => Dense [entry phi i]
    | Sparse _ => Sparse (MkSparse 1 (match get phi i with Some v => [(0, v)] | None => [] end))
    end.

  Lemma only_sized i phi : sized 1 (only i phi).
  Proof.
    destruct phi as [da|sa]; unfold only.
    - split; [apply wf_dense|reflexivity].
    - destruct (get _ i); (split; [split|reflexivity]); try apply bounded_sparse; simpl.
      + repeat constructor. auto.
      + intros k [<-|[]]. lia.
      + constructor.
      + intros k [].
  Qed.

  Lemma only_get i phi : i < size phi -> get (only i phi) 0 = get phi i.
  Proof.
    intros L. destruct phi as [da|sa]; unfold only, entry.
    - simpl in *. destruct (nth_error_lt da i L) as [x X]. now rewrite X.
    - destruct (get (Sparse sa) i); reflexivity.
  Qed.

  Lemma only_picks n i phi : sized n phi -> i < n -> picks_features (fun _ => i) 1 phi (only i phi).
  Proof.
    intros [[K _] Z] L. split; [destruct phi; reflexivity|]. intros k v Lk. replace k with 0 by lia.
    rewrite <- !get_stores; auto; [|apply only_sized]. rewrite only_get by lia. tauto.
  Qed.

  Lemma only_alike n n' i j phi psi : sized n phi -> sized n' psi -> i < n -> j < n' -> alike i j phi psi ->
    only i phi = only j psi.
  Proof.
    intros [[K _] Z] [[K' _] Z'] L L' [V S].
    assert (G : get psi j = get phi i).
    { destruct (get phi i) as [v|] eqn:G.
      - apply get_stores, S, get_stores; auto.
      - destruct (get psi j) as [v|] eqn:G'; auto. apply get_stores in G'; auto. apply S, get_stores in G'; auto. congruence. }
    destruct phi, psi; try discriminate; unfold only, entry; now rewrite G.
  Qed.

  Theorem isolated n n' i j (p : hyper F) h h' w w' : not_isgd (construct n p) -> i < n -> j < n' ->
    well_sized n h -> well_sized n' h' -> length w = n -> length w' = n' -> nth_error w i = nth_error w' j ->
    Forall2 (fun a b => snd b = snd a /\ alike i j (fst a) (fst b)) h h' ->
    exists o1 w1 o1' w1', train LibOptimiser h (construct n p) w = Ret (o1, w1) /\
      train LibOptimiser h' (construct n' p) w' = Ret (o1', w1') /\
      length w1 = n /\ length w1' = n' /\ nth_error w1 i = nth_error w1' j.
  Proof.
    intros N Li Lj Z Z' L L' Ew Ph.
    destruct (nth_error_lt w i) as [x X]; [lia|].
    set (g := map (fun a => (only i (fst a), snd a)) h).
    assert (Zg : well_sized 1 g) by (apply Forall_forall; intros q I; apply in_map_iff in I; destruct I as (q' & <- & _); apply only_sized).
    assert (P1 : picks_history (fun _ => i) 1 h g).
    { clear - Z Li. unfold picks_history, g. induction Z; simpl; constructor; auto. split; auto. apply (only_picks n); auto. }
    assert (P2 : picks_history (fun _ => j) 1 h' g).
    { clear - Z Z' Ph Li Lj. unfold picks_history, g. induction Ph as [|a b h h' [E A] Ph IH]; simpl; [constructor|].
      inversion_clear Z. inversion_clear Z'. constructor; auto. split; auto. simpl.
      rewrite (only_alike n n' i j (fst a) (fst b)); auto. apply (only_picks n'); auto. }
    assert (P3 : picks (fun _ => i) 1 w [x]) by (split; auto; intros k Lk; replace k with 0 by lia; auto).
    assert (P4 : picks (fun _ => j) 1 w' [x]) by (split; auto; intros k Lk; replace k with 0 by lia; simpl; congruence).
    destruct (subset_train (fun _ => i) 1 n p h g w [x]) as (o1 & w1 & q1 & v1 & E1 & E2 & L1 & Q1 & _); auto.
    destruct (subset_train (fun _ => j) 1 n' p h' g w' [x]) as (o2 & w2 & q2 & v2 & E3 & E4 & L2 & Q2 & _); auto.
    { destruct p; exact N. }
    exists o1, w1, o2, w2. splits; auto. rewrite E2 in E4. injection E4 as _ <-.
    rewrite <- (proj2 Q1 0), <- (proj2 Q2 0); auto.
  Qed.

  (** *** Stacked features *)

  (** Step by step, [h] stacks the features of [h1] on those of [h2], both dense
      or both sparse, with one factor. *)
  Fixpoint stacks (h1 h2 h : history F) : Prop :=
    match h1, h2, h with
    | [], [], [] => True
    | (a, e1) :: t1, (b, e2) :: t2, (c, e) :: t =>
        e1 = e /\ e2 = e /\ is_sparse a = is_sparse b /\ stack a b = Ret c /\ stacks t1 t2 t
    | _, _, _ => False
    end.

  Lemma stack_picks n1 n2 a b c : sized n1 a -> sized n2 b -> is_sparse a = is_sparse b -> stack a b = Ret c ->
    sized (n1 + n2) c /\ picks_features (fun i => i) n1 c a /\ picks_features (fun i => n1 + i) n2 c b.
  Proof.
    intros [Wa Za] [Wb Zb] V E. destruct (stack_spec a b Wa Wb) as (c' & E' & Wc & Zc & Vc & _).
    rewrite E in E'. injection E' as <-. split; [split; auto; lia|].
    assert (G : forall i, (i < n1 -> get c i = get a i) /\ (i < n2 -> get c (n1 + i) = get b i)).
    { intros i. destruct a as [la|[d1 m1]], b as [lb|[d2 m2]]; try discriminate.
      - simpl in *. injection E as <-. simpl. subst n1 n2. split; intros L.
        + apply nth_error_app1; auto.
        + rewrite nth_error_app2 by lia. f_equal. lia.
      - simpl in Za, Zb. subst d1 d2. destruct Wa as [K1 B1], Wb as [K2 B2]. rewrite bounded_sparse in B1, B2.
        rewrite stack_sparse_sparse in E by assumption. injection E as <-. simpl. rewrite !app_get, !shift_get. split; intros L.
        + destruct (hm_get m1 i); auto. destruct (Nat.ltb_spec i n1); [auto|lia].
        + assert (Nn : hm_get m1 (n1 + i) = None) by (apply hm_get_None; intros I; apply B1 in I; lia).
          rewrite Nn. destruct (Nat.ltb_spec (n1 + i) n1); [lia|]. f_equal. lia. }
    split; split.
    - rewrite Vc, <- V. now destruct (is_sparse a).
    - intros i v L. rewrite <- !get_stores by (apply Wa || apply Wc). rewrite (proj1 (G i) L). tauto.
    - rewrite Vc, <- V. now destruct (is_sparse a).
    - intros i v L. rewrite <- !get_stores by (apply Wb || apply Wc). rewrite (proj2 (G i) L). tauto.
  Qed.

  Theorem stack_train n1 n2 (p : hyper F) h1 h2 h w1 w2 : not_isgd (construct 0 p) ->
    well_sized n1 h1 -> well_sized n2 h2 -> stacks h1 h2 h -> length w1 = n1 -> length w2 = n2 ->
    exists o1 u1 o2 u2 o, train LibOptimiser h1 (construct n1 p) w1 = Ret (o1, u1) /\
      train LibOptimiser h2 (construct n2 p) w2 = Ret (o2, u2) /\
      train LibOptimiser h (construct (n1 + n2) p) (w1 ++ w2) = Ret (o, u1 ++ u2).
  Proof.
    intros N Z1 Z2 S L1 L2.
    assert (N' : not_isgd (construct (n1 + n2) p)) by (destruct p; exact N).
    assert (Q : well_sized (n1 + n2) h /\ picks_history (fun i => i) n1 h h1 /\ picks_history (fun i => n1 + i) n2 h h2).
    { clear - Z1 Z2 S. revert h2 h Z2 S. induction h1 as [|[a e1] t1 IH]; intros [|[b e2] t2] [|[c e] t] Z2 S; simpl in S; try contradiction.
      - splits; constructor.
      - destruct S as (-> & -> & V & E & S). inversion_clear Z1. inversion_clear Z2.
        destruct (stack_picks n1 n2 a b c) as (Zc & P & Q); auto.
        destruct (IH H1 t2 t) as (Zt & Pt & Qt); auto. splits; constructor; auto. }
    destruct Q as (Z & P1 & P2).
    assert (L : length (w1 ++ w2) = n1 + n2) by (rewrite app_length; lia).
    destruct (subset_train (fun i => i) n1 (n1 + n2) p h h1 (w1 ++ w2) w1) as (o & u & o1 & u1 & E & E1 & Lu & Q1 & _);
      auto; try lia.
    { split; auto. intros i Li. rewrite nth_error_app1; auto. lia. }
    destruct (subset_train (fun i => n1 + i) n2 (n1 + n2) p h h2 (w1 ++ w2) w2) as (o' & u' & o2 & u2 & E' & E2 & Lu' & Q2 & _);
      auto; try (intros; lia).
    { split; auto. intros i Li. rewrite nth_error_app2 by lia. f_equal. lia. }
    rewrite E in E'. injection E' as <- <-. exists o1, u1, o2, u2, o. splits; auto. rewrite E. do 2 f_equal.
    apply nth_error_ext. intros i. destruct Q1 as [M1 Q1], Q2 as [M2 Q2].
    destruct (Nat.lt_ge_cases i n1) as [Li|Li].
    - rewrite nth_error_app1 by lia. symmetry. auto.
    - rewrite nth_error_app2 by lia. rewrite M1. destruct (Nat.lt_ge_cases i (n1 + n2)) as [Lj|Lj].
      + rewrite Q2 by lia. f_equal. lia.
      + transitivity (@None F); [|symmetry]; apply nth_error_None; lia.
  Qed.
End More.

(** ** Relabelled approximators, over the reals *)
Local Open Scope R_scope.

(** [s] permutes the indices below [n]. *)
Definition permutes (s : nat -> nat) (n : nat) : Prop := Permutation (map s (seq 0 n)) (seq 0 n).

Definition relabels {I} (s : nat -> nat) (n : nat) (b b' : Basis R I) : Prop := forall x,
  match b_project b x, b_project b' x with
  | Panic, Panic => True
  | Ret (Err e), Ret (Err e') => e = e'
  | Ret (Ok phi), Ret (Ok psi) => sized n phi /\ sized n psi /\ picks_features s n phi psi
  | _, _ => False
  end.

(** The update looks at the prediction, not at the features. *)
Definition blind {I} (c : s_call R I) : Prop :=
  match c with SUpdateWith _ f => forall phi psi v, f phi v = f psi v | _ => True end.

Definition relabelled (s : nat -> nat) (n : nat) (o o' : lib_opt R) : Prop :=
  picks_opt s n o o' \/ exists lr, o = LISGD lr /\ o' = LISGD lr.

Lemma permutes_lt s n i : permutes s n -> (i < n)%nat -> (s i < n)%nat.
Proof.
  intros P L. assert (I : In (s i) (seq 0 n)).
  { eapply Permutation_in; [exact P|]. apply in_map, in_seq. lia. }
  apply in_seq in I. lia.
Qed.

Lemma rsum_Permutation l l' : Permutation l l' -> rsum l = rsum l'.
Proof. induction 1; simpl; lra. Qed.

Lemma sigma_permutes s n f : permutes s n -> sigma n (fun i => f (s i)) = sigma n f.
Proof.
  intros P. unfold sigma. rewrite <- (map_map s f). apply rsum_Permutation, Permutation_map, P.
Qed.

Lemma picks_coeff s n (phi psi : Features R) i : wf phi -> wf psi -> picks_features s n phi psi -> (i < n)%nat ->
  coeff psi i = coeff phi (s i).
Proof. intros [K _] [K' _] P L. rewrite !get_coeff, (picks_get s n phi psi); auto. Qed.

Lemma picks_predict s n (phi psi : Features R) w w' : permutes s n -> sized n phi -> sized n psi ->
  picks_features s n phi psi -> picks s n w w' -> predict psi w' = predict phi w.
Proof.
  intros P [W Z] [W' Z'] Pf [L Pw]. unfold predict. rewrite Z, Z'.
  rewrite <- (sigma_permutes s n (fun i => coeff phi i * at_ w i) P). apply sigma_ext. intros i Li.
  rewrite (picks_coeff s n phi psi i W W' Pf Li). f_equal. specialize (Pw i Li).
  rewrite (at_nth_error w' i) in Pw by lia. symmetry in Pw. symmetry. now apply nth_error_at.
Qed.

Lemma picks_norm2 s n (phi psi : Features R) : permutes s n -> sized n phi -> sized n psi ->
  picks_features s n phi psi -> norm2 psi = norm2 phi.
Proof.
  intros P [W Z] [W' Z'] Pf. unfold norm2. rewrite Z, Z'.
  rewrite <- (sigma_permutes s n (fun i => coeff phi i * coeff phi i) P). apply sigma_ext. intros i Li.
  now rewrite (picks_coeff s n phi psi i W W' Pf Li).
Qed.

Lemma relabelled_step s n o o' w w' (phi psi : Features R) e : permutes s n -> sized n phi -> sized n psi ->
  picks_features s n phi psi -> length w = n -> opt_sized n o -> picks s n w w' -> relabelled s n o o' ->
  exists o1 w1 o1' w1', lib_step_scaled o w phi e = Ret (o1, w1, Ok tt) /\ lib_step_scaled o' w' psi e = Ret (o1', w1', Ok tt) /\
    length w1 = n /\ opt_sized n o1 /\ picks s n w1 w1' /\ relabelled s n o1 o1'.
Proof.
  intros P Z Z' Pf L O Pw [Po|(lr & -> & ->)].
  - destruct (picks_step s n n (fun i => permutes_lt s n i P) o o' w w' phi psi e) as (o1 & w1 & o1' & w1' & A & B & C & D & E & G); auto.
    exists o1, w1, o1', w1'. splits; auto. left; auto.
  - destruct (picks_step s n n (fun i => permutes_lt s n i P) (LSGD (isgd_compute_lr lr phi)) (LSGD (isgd_compute_lr lr phi)) w w' phi psi e)
      as (o1 & w1 & o1' & w1' & A & B & C & D & E & G); auto; [reflexivity|].
    assert (Q : isgd_compute_lr lr psi = isgd_compute_lr lr phi).
    { rewrite !isgd_lr_R by (apply Z || apply Z'). now rewrite (picks_norm2 s n phi psi). }
    cbn [lib_step_scaled o_step_scaled SGD] in A, B. unfold sgd_step_scaled in A, B. rewrite <- Q in B.
    destruct (scaled_addto phi _ w) as [x|] eqn:X; [|discriminate]. destruct (scaled_addto psi _ w') as [y|] eqn:Y; [|discriminate].
    injection A as <- <-. injection B as <- <-.
    exists (LISGD lr), x, (LISGD lr), y. cbn [lib_step_scaled o_step_scaled ISGD]. unfold isgd_step_scaled. rewrite X, Y.
    splits; auto. right; eauto.
Qed.

Definition twin {I} s n (a a' : ScalarLFA R I (lib_opt R)) : Prop :=
  length (lfa_weights a) = n /\ opt_sized n (lfa_optimiser a) /\
  picks s n (lfa_weights a) (lfa_weights a') /\ relabelled s n (lfa_optimiser a) (lfa_optimiser a').

Lemma twin_evaluate {I} s n (a a' : ScalarLFA R I (lib_opt R)) x : permutes s n ->
  relabels s n (lfa_basis a) (lfa_basis a') -> twin s n a a' -> s_evaluate a' x = s_evaluate a x.
Proof.
  intros P Rb (L & _ & Pw & _). specialize (Rb x). unfold s_evaluate.
  destruct (b_project (lfa_basis a) x) as [[phi|]|], (b_project (lfa_basis a') x) as [[psi|]|]; simpl; try contradiction; auto.
  - destruct Rb as (Z & Z' & Pf). rewrite !dot_predict by (rewrite ?L, ?(proj1 Pw); auto). simpl.
    now rewrite (picks_predict s n phi psi (lfa_weights a) (lfa_weights a')).
  - now subst.
Qed.

Lemma twin_do {I} s n (a a' : ScalarLFA R I (lib_opt R)) c : permutes s n -> blind c ->
  relabels s n (lfa_basis a) (lfa_basis a') -> twin s n a a' ->
  match s_do LibOptimiser a c, s_do LibOptimiser a' c with
  | Ret a1, Ret a1' => lfa_basis a1 = lfa_basis a /\ lfa_basis a1' = lfa_basis a' /\ twin s n a1 a1'
  | Panic, Panic => True
  | _, _ => False
  end.
Proof.
  intros P Bl Rb T. destruct c as [x|x e|x f]; unfold s_do.
  - rewrite (twin_evaluate s n a a' x P Rb T). destruct (s_evaluate a x); simpl; auto.
  - specialize (Rb x). unfold s_update. destruct T as (L & O & Pw & Po) eqn:ET.
    destruct (b_project (lfa_basis a) x) as [[phi|]|], (b_project (lfa_basis a') x) as [[psi|]|]; simpl; try contradiction; auto.
    destruct Rb as (Z & Z' & Pf).
    destruct (relabelled_step s n _ _ _ _ phi psi e P Z Z' Pf L O Pw Po) as (o1 & w1 & o1' & w1' & E & E' & L1 & O1 & P1 & R1).
    rewrite E, E'. simpl. splits; auto. unfold twin. simpl. auto.
  - specialize (Rb x). unfold s_update_with. destruct T as (L & O & Pw & Po) eqn:ET.
    destruct (b_project (lfa_basis a) x) as [[phi|]|], (b_project (lfa_basis a') x) as [[psi|]|]; simpl; try contradiction; auto.
    destruct Rb as (Z & Z' & Pf).
    rewrite !dot_predict by (rewrite ?L, ?(proj1 Pw); auto). simpl.
    rewrite (picks_predict s n phi psi (lfa_weights a) (lfa_weights a')) by auto. rewrite (Bl psi phi).
    destruct (relabelled_step s n _ _ _ _ phi psi (f phi (predict phi (lfa_weights a))) P Z Z' Pf L O Pw Po)
      as (o1 & w1 & o1' & w1' & E & E' & L1 & O1 & P1 & R1).
    rewrite E, E'. simpl. splits; auto. unfold twin. simpl. auto.
Qed.

Lemma twin_run {I} s n cs : permutes s n -> Forall blind cs -> forall a a' : ScalarLFA R I (lib_opt R),
  relabels s n (lfa_basis a) (lfa_basis a') -> twin s n a a' ->
  match s_run LibOptimiser cs a, s_run LibOptimiser cs a' with
  | Ret a1, Ret a1' => twin s n a1 a1' /\ forall x, s_evaluate a1' x = s_evaluate a1 x
  | Panic, Panic => True
  | _, _ => False
  end.
Proof.
  intros P. unfold s_run. induction cs as [|c cs IH]; intros Bl a a' Rb T; cbn [ofold].
  - split; auto. intros x. now apply (twin_evaluate s n).
  - inversion_clear Bl. pose proof (twin_do s n a a' c P H Rb T) as D.
    destruct (s_do LibOptimiser a c) as [a1|], (s_do LibOptimiser a' c) as [a1'|]; try contradiction; auto.
    destruct D as (B1 & B2 & T1). apply IH; auto. now rewrite B1, B2.
Qed.

Theorem relabelled_run {I} s n (b b' : Basis R I) (p : hyper R) cs : permutes s n -> b_dim b = n -> b_dim b' = n ->
  relabels s n b b' -> Forall blind cs ->
  match s_run LibOptimiser cs (scalar b (construct n p)), s_run LibOptimiser cs (scalar b' (construct n p)) with
  | Ret a, Ret a' => (forall i, (i < n)%nat -> at_ (lfa_weights a') i = at_ (lfa_weights a) (s i)) /\
                     forall x, s_evaluate a' x = s_evaluate a x
  | Panic, Panic => True
  | _, _ => False
  end.
Proof.
  intros P D D' Rb Bl.
  assert (T : twin s n (scalar b (construct n p)) (scalar b' (construct n p))).
  { unfold twin, scalar. cbn [lfa_weights lfa_optimiser]. rewrite D, D'. splits.
    - apply repeat_length.
    - apply construct_sized.
    - apply picks_zeros. intros i. apply permutes_lt; auto.
    - destruct p; try (left; apply construct_picks; [intros i; apply permutes_lt; auto|exact Logic.I]).
      right. eexists. split; reflexivity. }
  pose proof (twin_run s n cs P Bl (scalar b (construct n p)) (scalar b' (construct n p)) Rb T) as Q.
  destruct (s_run LibOptimiser cs (scalar b _)) as [a|], (s_run LibOptimiser cs (scalar b' _)) as [a'|]; auto.
  destruct Q as [(L & _ & [L' Pw] & _) E]. split; auto. intros i Li. specialize (Pw i Li).
  rewrite (at_nth_error _ i) in Pw by lia. symmetry in Pw. symmetry. now apply nth_error_at.
Qed.
