(** C69: each weight trains on its own features. Proofs are in Locality.v and
    LocalityMore.v. *)
From Coq Require Import String List Arith ZArith Lia Permutation Reals Lra.
From Flocq Require Import IEEE754.BinarySingleNaN.
From Verif Require Import Base Scalar ScalarR ScalarF64 HMap HMapFacts NdArray VecFacts Features Spec FeatureFacts
  Optim OptimSpec OptimFacts OptimReal Lfa LfaSpec OptimOrder Locality LocalityMore.
Import ListNotations.

(** ** C69 *)

(** Training on some of the features, in any order and with repetition, gives
    the weights that training on all of them gives those features. *)
Theorem C69_subset : forall F `{Scalar F} s m n (p : hyper F) h h' w w', (forall i, i < m -> s i < n) ->
  not_isgd (construct n p) -> well_sized n h -> well_sized m h' ->
  Forall2 (fun a b => snd b = snd a /\ is_sparse (fst b) = is_sparse (fst a) /\
    forall i v, i < m -> (stores (fst b) i v <-> stores (fst a) (s i) v)) h h' ->
  length w = n -> length w' = m -> (forall i, i < m -> nth_error w' i = nth_error w (s i)) ->
  exists o1 w1 o1' w1', train LibOptimiser h (construct n p) w = Ret (o1, w1) /\
    train LibOptimiser h' (construct m p) w' = Ret (o1', w1') /\
    length w1 = n /\ length w1' = m /\ forall i, i < m -> nth_error w1' i = nth_error w1 (s i).
Proof.
  intros F S s m n p h h' w w' B N Z Z' P L L' Pw.
  destruct (subset_train s m n p h h' w w') as (o1 & w1 & o1' & w1' & A & C & D & [E G] & _); auto; [split; auto|].
  exists o1, w1, o1', w1'. splits; auto.
Qed.
Print Assumptions C69_subset.

(** In the middle of training as well: from any state that reads the same. *)
Theorem C69_resumed : forall F `{Scalar F} s m n h h' (o o' : lib_opt F) w w', (forall i, i < m -> s i < n) ->
  well_sized n h -> well_sized m h' -> picks_history s m h h' ->
  length w = n -> opt_sized n o -> picks s m w w' -> picks_opt s m o o' ->
  exists o1 w1 o1' w1', train LibOptimiser h o w = Ret (o1, w1) /\ train LibOptimiser h' o' w' = Ret (o1', w1') /\
    length w1 = n /\ picks s m w1 w1' /\ picks_opt s m o1 o1'.
Proof. intros F S s m n h h' o o' w w' B. exact (picks_train s m n B h h' o o' w w'). Qed.
Print Assumptions C69_resumed.

(** Whatever the other features hold, infinities and NaNs included, and however
    many they are. *)
Theorem C69_isolated : forall F `{Scalar F} n n' i j (p : hyper F) h h' w w', not_isgd (construct n p) -> i < n -> j < n' ->
  well_sized n h -> well_sized n' h' -> length w = n -> length w' = n' -> nth_error w i = nth_error w' j ->
  Forall2 (fun a b => snd b = snd a /\ is_sparse (fst b) = is_sparse (fst a) /\
    forall v, stores (fst a) i v <-> stores (fst b) j v) h h' ->
  exists o1 w1 o1' w1', train LibOptimiser h (construct n p) w = Ret (o1, w1) /\
    train LibOptimiser h' (construct n' p) w' = Ret (o1', w1') /\
    length w1 = n /\ length w1' = n' /\ nth_error w1 i = nth_error w1' j.
Proof. exact @isolated. Qed.
Print Assumptions C69_isolated.

(** Two stacked feature vectors train as two approximators would. *)
Theorem C69_stack : forall F `{Scalar F} n1 n2 (p : hyper F) h1 h2 h w1 w2, not_isgd (construct 0 p) ->
  well_sized n1 h1 -> well_sized n2 h2 -> stacks h1 h2 h -> length w1 = n1 -> length w2 = n2 ->
  exists o1 u1 o2 u2 o, train LibOptimiser h1 (construct n1 p) w1 = Ret (o1, u1) /\
    train LibOptimiser h2 (construct n2 p) w2 = Ret (o2, u2) /\
    train LibOptimiser h (construct (n1 + n2) p) (w1 ++ w2) = Ret (o, u1 ++ u2).
Proof. exact @stack_train. Qed.
Print Assumptions C69_stack.

(** Over the reals the labels do not matter to an approximator, ISGD included:
    the weights are relabelled and the predictions are the same. *)
Theorem C69_relabelled : forall I s n (b b' : Basis R I) (p : hyper R) cs,
  Permutation (map s (seq 0 n)) (seq 0 n) -> b_dim b = n -> b_dim b' = n ->
  relabels s n b b' -> Forall blind cs ->
  match s_run LibOptimiser cs (scalar b (construct n p)), s_run LibOptimiser cs (scalar b' (construct n p)) with
  | Ret a, Ret a' => (forall i, i < n -> at_ (lfa_weights a') i = at_ (lfa_weights a) (s i)) /\
                     forall x, s_evaluate a' x = s_evaluate a x
  | Panic, Panic => True
  | _, _ => False
  end.
Proof. intros I s n b b' p cs. exact (relabelled_run s n b b' p cs). Qed.
Print Assumptions C69_relabelled.

(** ISGD divides by the norm of all the features: a NaN in feature 1 reaches
    weight 0, as it does under no other optimiser. *)
Theorem C69_isgd_refuted : let S := ScalarF64 SimplePlatform in
  exists (h h' : history f64) o1 w1 o1' w1', well_sized 2 h /\ well_sized 2 h' /\
  Forall2 (fun a b => snd b = snd a /\ alike 0 0 (fst a) (fst b)) h h' /\
  train LibOptimiser h (construct 2 (HISGD (b_dyadic 1 0))) (zeros 2) = Ret (o1, w1) /\
  train LibOptimiser h' (construct 2 (HISGD (b_dyadic 1 0))) (zeros 2) = Ret (o1', w1') /\
  nth_error w1 0 = Some (b_dyadic 1 (-1)) /\ nth_error w1' 0 = Some B754_nan.
Proof.
  intros S. set (one := b_dyadic 1 0).
  exists [(Dense [one; b_zero], one)], [(Dense [one; B754_nan], one)].
  do 4 eexists. split; [|split; [|split; [|split; [|split; [|split]]]]].
  - constructor; [|constructor]. split; [apply wf_dense|reflexivity].
  - constructor; [|constructor]. split; [apply wf_dense|reflexivity].
  - constructor; [|constructor]. split; [reflexivity|]. split; [reflexivity|]. intros v. simpl. tauto.
  - reflexivity.
  - reflexivity.
  - cbn [map2 zeros repeat nth_error]. apply (f_equal Some). apply B2SF_inj. vm_compute. reflexivity.
  - cbn [map2 zeros repeat nth_error]. apply (f_equal Some). apply B2SF_inj. vm_compute. reflexivity.
Qed.
Print Assumptions C69_isgd_refuted.

(** Mixing representations is not covered by C69_stack: stacked on a dense
    vector a sparse one becomes dense, and an infinite factor then makes NaN of
    a weight whose feature is not stored. *)
Theorem C69_stack_mixed_refuted : let S := ScalarF64 SimplePlatform in
  let inf : f64 := B754_infinity false in
  exists (a b c : Features f64) o u o2 u2, sized 1 a /\ sized 1 b /\ stack a b = Ret c /\
  train LibOptimiser [(b, inf)] (construct 1 (HSGD (b_dyadic 1 0))) (zeros 1) = Ret (o2, u2) /\
  train LibOptimiser [(c, inf)] (construct 2 (HSGD (b_dyadic 1 0))) (zeros 2) = Ret (o, u) /\
  nth_error u2 0 = Some b_zero /\ nth_error u 1 = Some B754_nan.
Proof.
  intros S inf. exists (Dense [b_dyadic 1 0]), (Sparse (MkSparse 1 [])), (Dense [b_dyadic 1 0; b_zero]).
  do 4 eexists. split; [|split; [|split; [|split; [|split; [|split]]]]].
  - split; [apply wf_dense|reflexivity].
  - split; [|reflexivity]. split; [constructor|apply bounded_sparse; intros i []].
  - reflexivity.
  - reflexivity.
  - reflexivity.
  - reflexivity.
  - cbn [map2 zeros repeat nth_error]. apply (f_equal Some). apply B2SF_inj. vm_compute. reflexivity.
Qed.
Print Assumptions C69_stack_mixed_refuted.

(** Features 2 and 0 of a three-feature history; a sparse pair stacked; labels
    exchanged in a basis. *)
Definition loc_s (i : nat) : nat := match i with 0 => 2 | _ => 0 end.
Example C69_case : let S := ScalarF64 SimplePlatform in
  let one := b_dyadic 1 0 in let two := b_dyadic 1 1 in
  let h : history f64 := [(Sparse (MkSparse 3 [(2, one); (1, B754_nan)]), one); (Dense [one; B754_nan; two], two)] in
  let h' : history f64 := [(Sparse (MkSparse 2 [(0, one)]), one); (Dense [two; one], two)] in
  (forall i, i < 2 -> loc_s i < 3) /\ well_sized 3 h /\ well_sized 2 h' /\
  not_isgd (@construct f64 S 3 (HAdam one one one)) /\ picks_history loc_s 2 h h' /\
  stacks h' h' [(Sparse (MkSparse 4 [(0, one); (2, one)]), one); (Dense [two; one; two; one], two)].
Proof.
  cbv zeta. split; [|split; [|split; [|split; [|split]]]].
  - intros [|[|i]]; simpl; lia.
  - constructor; [|constructor; [|constructor]]; (split; [|reflexivity]).
    + split; [repeat constructor; simpl; intuition lia|apply bounded_sparse; simpl; intros i [<-|[<-|[]]]; lia].
    + apply wf_dense.
  - constructor; [|constructor; [|constructor]]; (split; [|reflexivity]).
    + split; [repeat constructor; simpl; intuition lia|apply bounded_sparse; simpl; intros i [<-|[]]; lia].
    + apply wf_dense.
  - exact Logic.I.
  - constructor; [|constructor; [|constructor]]; (split; [reflexivity|split; [reflexivity|]]).
    + intros [|[|i]] v L; simpl; [..|lia]; split; intros E; repeat (destruct E as [E|E]); try (inversion E; subst; auto).
    + intros [|[|i]] v L; simpl; [tauto..|lia].
  - simpl. splits; auto.
Qed.
Example C69_relabels : let b := MkBasis 2 (fun x : R => Ret (Ok (Dense [x; 1%R]))) in
  let b' := MkBasis 2 (fun x : R => Ret (Ok (Dense [1%R; x]))) in
  Permutation (map (fun i => 1 - i) (seq 0 2)) (seq 0 2) /\ relabels (fun i => 1 - i) 2 b b' /\
  Forall blind [fit_call (3%R, 4%R); SEvaluate 1%R; SUpdate 2%R 5%R].
Proof.
  cbv zeta. split; [|split].
  - apply perm_swap.
  - intros x. cbn [b_project]. split; [split; [apply wf_dense|reflexivity]|]. split; [split; [apply wf_dense|reflexivity]|].
    split; [reflexivity|]. intros [|[|i]] v L; simpl; [tauto..|lia].
  - repeat constructor.
Qed.
