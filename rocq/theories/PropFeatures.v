(** C01-C15: feature vectors. Statements only; proofs are in FeatureFacts.v,
    FeatureMore.v and F64Facts.v. The vocabulary is in Spec.v. *)
From Coq Require Import List Arith ZArith Lia Permutation Bool Reals Lra.
From Flocq Require Import IEEE754.BinarySingleNaN.
From Verif Require Import Base Scalar ScalarR ScalarF64 HMap HMapFacts NdArray VecFacts
  Features Spec FeatureFacts FeatureMore F64Facts FeatureLast SumOrder FeatureF64.
Import ListNotations.

(** Running example: 5 features, indices 3 and 1 active. *)
Definition ex_sparse : Features R := Sparse (MkSparse 5 [(3, 7%R); (1, (-2)%R)]).
Definition ex_bad : Features R := Sparse (MkSparse 2 [(3, 7%R); (1, (-2)%R)]).

Ltac keyed_tac := simpl; repeat constructor; simpl; intuition discriminate.
Ltac bounded_tac := intros ?i [?v ?V]; simpl in *; intuition (try congruence);
  repeat match goal with E : (_, _) = (_, _) |- _ => inversion E; clear E; subst end; lia.
Ltac wf_tac := split; [keyed_tac | bounded_tac].

Example ex_sparse_wf : wf ex_sparse.
Proof. wf_tac. Qed.

Example ex_bad_not_bounded : keyed ex_bad /\ ~ bounded ex_bad.
Proof.
  split; [keyed_tac|]. intros B. specialize (B 3). simpl in B.
  assert (3 < 2); [|lia]. apply B. exists 7%R. simpl. auto.
Qed.

(** ** C01 *)

Theorem C01_dense_expansion : forall F `{Scalar F} (phi : Features F), keyed phi ->
  (forall l, into_dense phi = Ret l <-> bounded phi /\ expands phi l) /\
  (into_dense phi = Panic <-> ~ bounded phi) /\
  to_dense phi = into_dense phi.
Proof. exact @into_dense_spec. Qed.
Print Assumptions C01_dense_expansion.

(** [expands] determines the vector, so the two calls return the expansion. *)
Theorem C01_expansion_unique : forall F `{Scalar F} (phi : Features F) l l',
  keyed phi -> expands phi l -> expands phi l' -> l = l'.
Proof. exact @expands_unique. Qed.
Print Assumptions C01_expansion_unique.

Example C01_case : to_dense ex_sparse = Ret [fzero; (-2)%R; fzero; 7%R; fzero] /\
  to_dense ex_bad = Panic.
Proof. split; reflexivity. Qed.

(** ** C02 *)

Theorem C02_hash_order : forall F `{Scalar F} (cs : list cmd) (phi phi' : Features F) r r',
  Forall operand_keyed cs -> keyed phi -> same phi phi' ->
  exec cs phi r -> exec cs phi' r' -> same_outcome r r'.
Proof. intros F S cs phi phi' r r' Kc. exact (exec_deterministic cs Kc phi phi' r r'). Qed.
Print Assumptions C02_hash_order.

(** ... and [same] values cannot be told apart. *)
Theorem C02_same_observations : forall F `{Scalar F} (phi psi : Features F),
  keyed phi -> same phi psi ->
  is_sparse phi = is_sparse psi /\ n_features phi = n_features psi /\
  n_active phi = n_active psi /\
  (forall i, get phi i = get psi i) /\ (forall i, index phi i = index psi i) /\
  into_dense phi = into_dense psi /\
  (forall a w, scaled_addto phi a w = scaled_addto psi a w) /\
  (forall w, addto phi w = addto psi w).
Proof. exact @same_observations. Qed.
Print Assumptions C02_same_observations.

Example C02_case :
  let cs := [CRemove 3; CStack ex_sparse; CIntoDense] in
  exec cs ex_sparse (Ret (Dense [(fzero : R); (-2)%R; fzero; fzero; fzero; fzero; (-2)%R; fzero; 7%R; fzero])) /\
  Forall operand_keyed cs /\ keyed ex_sparse.
Proof.
  set (alt := Sparse (MkSparse 5 [(1, (-2)%R); (3, 7%R)])).
  assert (A : same ex_sparse alt) by (split; auto; apply perm_swap).
  split; [|split; [repeat constructor; keyed_tac|keyed_tac]].
  refine (exec_step (CRemove 3) (CRemove 3) _ ex_sparse alt _ _ A _ eq_refl _); [reflexivity|].
  eapply (exec_step (CStack ex_sparse) (CStack alt)); [apply same_refl|exact A|reflexivity|].
  eapply (exec_step CIntoDense CIntoDense); [apply same_refl|exact I|reflexivity|].
  apply exec_done, same_refl.
Qed.

(** ** C03 *)

Theorem C03_reductions_exact : forall (phi : Features R) l, wf phi -> expands phi l ->
  fsum phi = fsum (Dense l) /\
  forall w, length w = size phi -> dot phi w = dot (Dense l) w /\ dot phi w = Ret (rdot l w).
Proof. exact reductions_expand. Qed.
Print Assumptions C03_reductions_exact.

Theorem C03_reductions_order_free : forall (phi psi : Features R), keyed phi -> same phi psi ->
  fsum phi = fsum psi /\ forall w, dot phi w = dot psi w.
Proof. exact reductions_same. Qed.
Print Assumptions C03_reductions_order_free.

(** f64: three activations, two layouts, two different sums. *)
Theorem C03_f64_order_refuted : forall P, exists phi psi : Features f64,
  wf phi /\ same phi psi /\
  Beqb (@fsum f64 (ScalarF64 P) phi) (@fsum f64 (ScalarF64 P) psi) = false.
Proof.
  intros P.
  exists (Sparse (MkSparse 3 [(0, b_dyadic 1 60); (1, b_dyadic (-1) 60); (2, b_dyadic 1 0)])),
         (Sparse (MkSparse 3 [(0, b_dyadic 1 60); (2, b_dyadic 1 0); (1, b_dyadic (-1) 60)])).
  split; [wf_tac|]. split.
  - split; auto. apply perm_skip, perm_swap.
  - vm_compute. reflexivity.
Qed.
Print Assumptions C03_f64_order_refuted.

Theorem C03_f64_sum_bound : forall P d m d' m',
  same (Sparse (MkSparse d m)) (Sparse (MkSparse d' m')) ->
  let s := @fsum f64 (ScalarF64 P) (Sparse (MkSparse d m)) in
  let s' := @fsum f64 (ScalarF64 P) (Sparse (MkSparse d' m')) in
  is_finite s = true -> is_finite s' = true ->
  (Rabs (B2R s - B2R s') <=
   2 * ((1 + uro) ^ length m - 1) * rsum (map (fun kv => Rabs (B2R (snd kv))) m))%R.
Proof. exact fsum_f64_bound. Qed.
Print Assumptions C03_f64_sum_bound.

(** The same for [dot]: the terms are the rounded products w[i]*phi[i]. *)
Theorem C03_f64_dot_bound : forall P d m d' m' w s s',
  same (Sparse (MkSparse d m)) (Sparse (MkSparse d' m')) ->
  @dot f64 (ScalarF64 P) (Sparse (MkSparse d m)) w = Ret s ->
  @dot f64 (ScalarF64 P) (Sparse (MkSparse d' m')) w = Ret s' ->
  is_finite s = true -> is_finite s' = true ->
  (Rabs (B2R s - B2R s') <=
   2 * ((1 + uro) ^ length m - 1) *
   rsum (map (fun kv => Rabs (B2R (b_mul (nth (fst kv) w b_zero) (snd kv)))) m))%R.
Proof. exact dot_f64_bound. Qed.
Print Assumptions C03_f64_dot_bound.

(** Against the exact values: sparse or dense, whatever order and grouping the
    additions are done in; a dense dot product may also fuse its products with
    its additions, as the routine behind ndarray's [blas] feature may. *)
Theorem C03_f64_sum_error : forall P (phi : Features f64) l, any_order P -> wf phi ->
  @expands f64 (ScalarF64 P) phi l ->
  let s := @fsum f64 (ScalarF64 P) phi in
  is_finite s = true ->
  (Rabs (B2R s - rsum (map B2R l)) <=
   ((1 + uro) ^ size phi - 1) * rsum (map (fun x => Rabs (B2R x)) l))%R.
Proof. exact fsum_f64_error. Qed.
Print Assumptions C03_f64_sum_error.

Theorem C03_f64_layouts : forall P (phi psi : Features f64) l, any_order P -> wf phi -> wf psi ->
  @expands f64 (ScalarF64 P) phi l -> @expands f64 (ScalarF64 P) psi l ->
  let s := @fsum f64 (ScalarF64 P) phi in
  let t := @fsum f64 (ScalarF64 P) psi in
  is_finite s = true -> is_finite t = true ->
  (Rabs (B2R s - B2R t) <=
   2 * ((1 + uro) ^ length l - 1) * rsum (map (fun x => Rabs (B2R x)) l))%R.
Proof. exact fsum_f64_layouts. Qed.
Print Assumptions C03_f64_layouts.

Theorem C03_f64_dot_error : forall P (phi : Features f64) l w s, any_order P -> wf phi ->
  @expands f64 (ScalarF64 P) phi l -> length w = size phi ->
  @dot f64 (ScalarF64 P) phi w = Ret s -> is_finite s = true ->
  (Rabs (B2R s - rdot (map B2R l) (map B2R w)) <=
   ((1 + uro) ^ S (size phi) - 1) * rdot (map (fun x => Rabs (B2R x)) l) (map (fun x => Rabs (B2R x)) w)
   + (1 + uro) ^ size phi * (INR (size phi) * eta64))%R.
Proof. exact dot_f64_error. Qed.
Print Assumptions C03_f64_dot_error.

(** ndarray's own order (eight running sums), the naive one, and the naive one
    with fused multiply-adds, which gives another result. *)
Example C03_orders : any_order UnrolledPlatform /\ any_order SimplePlatform /\ any_order FusedPlatform /\
  p_dot FusedPlatform [b_dyadic 1 0; b_dyadic (2 ^ 30 + 1) 0] [b_dyadic (- 2 ^ 60) 0; b_dyadic (2 ^ 30 + 1) 0] <>
  p_dot SimplePlatform [b_dyadic 1 0; b_dyadic (2 ^ 30 + 1) 0] [b_dyadic (- 2 ^ 60) 0; b_dyadic (2 ^ 30 + 1) 0] /\
  Beqb (@fsum f64 (ScalarF64 UnrolledPlatform)
          (Dense (map (fun z => b_dyadic z 0) [1; 2; 3; 4; 5; 6; 7; 8; 9; 10]%Z))) (b_dyadic 55 0) = true.
Proof.
  split; [apply unrolled_any_order|]. split; [apply simple_any_order|]. split; [apply fused_any_order|].
  split; [|vm_compute; reflexivity]. intros E. apply (f_equal (fun x => B2SF x)) in E. vm_compute in E. discriminate.
Qed.

Example C03_case : fsum ex_sparse = 5%R /\
  is_finite (@fsum f64 (ScalarF64 SimplePlatform)
    (Sparse (MkSparse 3 [(0, b_dyadic 1 60); (1, b_dyadic (-1) 60); (2, b_dyadic 1 0)]))) = true.
Proof. split; [|reflexivity]. simpl. rewrite fzero_R. lra. Qed.

(** ** C04 *)

Theorem C04_stack : forall F `{Scalar F} (a b : Features F), wf a -> wf b ->
  exists c, stack a b = Ret c /\ wf c /\ size c = size a + size b /\
    is_sparse c = is_sparse a && is_sparse b /\
    forall la lb, expands a la -> expands b lb -> expands c (la ++ lb).
Proof. exact @stack_spec. Qed.
Print Assumptions C04_stack.

Theorem C04_stack_assoc : forall F `{Scalar F} (a b c : Features F), wf a -> wf b -> wf c ->
  exists x y, (let* ab := stack a b in stack ab c) = Ret x /\
    (let* bc := stack b c in stack a bc) = Ret y /\ same x y.
Proof. exact @stack_assoc. Qed.
Print Assumptions C04_stack_assoc.

Theorem C04_stack_panic : forall F `{Scalar F} (a b : Features F), keyed a -> keyed b ->
  (stack a b = Panic <-> is_sparse a && is_sparse b = false /\ (~ bounded a \/ ~ bounded b)).
Proof. exact @stack_panic. Qed.
Print Assumptions C04_stack_panic.

(** Without the bound on the left operand, an activation of the left operand is
    silently replaced by one of the right operand. *)
Theorem C04_stack_overwrites_refuted : exists a b c : Features R,
  keyed a /\ wf b /\ stack a b = Ret c /\ stores a 3 7%R /\ ~ stores c 3 7%R /\
  length (match c with Sparse s => sa_acts s | _ => [] end) = 2.
Proof.
  exists ex_bad, (Sparse (MkSparse 2 [(1, 4%R)])), (Sparse (MkSparse 4 [(3, 4%R); (1, (-2)%R)])).
  split; [keyed_tac|]. split; [wf_tac|]. split; [reflexivity|]. split; [simpl; auto|].
  split; [|reflexivity]. simpl. intros [E|[E|[]]]; inversion E; lra.
Qed.
Print Assumptions C04_stack_overwrites_refuted.

Example C04_case : stack ex_sparse (Dense [8%R; 9%R]) =
  Ret (Dense [fzero; (-2)%R; fzero; 7%R; fzero; 8%R; 9%R]).
Proof. reflexivity. Qed.

(** ** C05 *)

Theorem C05_map_pointwise : forall F `{Scalar F} (phi : Features F) f, wf phi ->
  exists psi, fmap phi f = Ret psi /\ wf psi /\ size psi = size phi /\
    forall l l', expands phi l -> expands psi l' ->
      (f fzero = fzero \/ fltb (fabs (f fzero)) sparsity_tol = false -> l' = map f l) /\
      (l' = map f l <->
         is_sparse psi = false \/ f fzero = fzero \/ forall i, i < size phi -> stored phi i) /\
      (forall i x x', nth_error l i = Some x -> nth_error l' i = Some x' ->
         x' = f x \/ (~ stored phi i /\ x = fzero /\ x' = fzero /\
                      fltb (fabs (f x)) sparsity_tol = true)).
Proof. exact @fmap_pointwise. Qed.
Print Assumptions C05_map_pointwise.

(** In exact arithmetic no entry is ever off by 1e-5 or more. *)
Theorem C05_map_error : forall (phi psi : Features R) f l l', wf phi -> fmap phi f = Ret psi ->
  expands phi l -> expands psi l' ->
  forall i x x', nth_error l i = Some x -> nth_error l' i = Some x' ->
    (Rabs (x' - f x) < 1 / 100000)%R.
Proof. exact fmap_error. Qed.
Print Assumptions C05_map_error.

(** When a sparse value stays sparse is decided by f(0) alone, and stored
    activations are always mapped. *)
Theorem C05_map_sparsity : forall F `{Scalar F} (phi psi : Features F) f, wf phi ->
  fmap phi f = Ret psi ->
  is_sparse psi = is_sparse phi && fltb (fabs (f fzero)) sparsity_tol /\
  (is_sparse psi = true -> forall i v, stores psi i v <-> exists u, stores phi i u /\ v = f u).
Proof. exact @fmap_sparsity. Qed.
Print Assumptions C05_map_sparsity.

Theorem C05_map_panic : forall F `{Scalar F} (phi : Features F) f, keyed phi ->
  (fmap phi f = Panic <->
   is_sparse phi && fltb (fabs (f fzero)) sparsity_tol = false /\ ~ bounded phi).
Proof. exact @fmap_panic. Qed.
Print Assumptions C05_map_panic.

Theorem C05_map_drops_small_refuted : exists (phi psi : Features R) f l,
  wf phi /\ fmap phi f = Ret psi /\ expands phi l /\ ~ expands psi (map f l).
Proof. exact fmap_drops. Qed.
Print Assumptions C05_map_drops_small_refuted.

(** ** C06 *)

Theorem C06_map_flavours : forall F `{Scalar F} (phi phi1 phi2 : Features F) f,
  keyed phi -> same phi phi1 -> same phi phi2 ->
  same_outcome (fmap phi f) (fmap_into phi1 f) /\
  same_outcome (fmap phi f) (fmap_inplace phi2 f).
Proof. intros F S phi phi1 phi2 f K E1 E2. split; apply fmap_same; assumption. Qed.
Print Assumptions C06_map_flavours.

Example C06_case : keyed ex_sparse /\
  same ex_sparse (Sparse (MkSparse 5 [(1, (-2)%R); (3, 7%R)])).
Proof. split; [keyed_tac|]. split; auto. apply perm_swap. Qed.

(** ** C07 *)

Theorem C07_merge_dense_dense : forall F `{Scalar F} (la lb : list F) f,
  (length lb = length la -> merge_into (Dense la) (Dense lb) f = Ret (Dense (map2 f la lb))) /\
  (length lb <> length la ->
     (exists y, lb = [y] /\ merge_into (Dense la) (Dense lb) f = Ret (Dense (map (fun x => f x y) la))) \/
     (length lb <> 1 /\ merge_into (Dense la) (Dense lb) f = Panic)).
Proof. exact @merge_into_dd. Qed.
Print Assumptions C07_merge_dense_dense.

Theorem C07_merge_sparse_dense : forall F `{Scalar F} d m (lb : list F) f la,
  wf (Sparse (MkSparse d m)) -> expands (Sparse (MkSparse d m)) la ->
  merge_into (Sparse (MkSparse d m)) (Dense lb) f =
  Ret (Dense (map (fun i => f (nth i la fzero) (nth i lb fzero)) (seq 0 (Nat.max d (length lb))))).
Proof. exact @merge_into_sparse_dense. Qed.
Print Assumptions C07_merge_sparse_dense.

Theorem C07_merge_dense_sparse : forall F `{Scalar F} (la : list F) d m f lb,
  wf (Sparse (MkSparse d m)) -> expands (Sparse (MkSparse d m)) lb -> d = length la ->
  exists l, merge_into (Dense la) (Sparse (MkSparse d m)) f = Ret (Dense l) /\
    (l = map2 f la lb <->
     forall i x, nth_error la i = Some x -> ~ stored (Sparse (MkSparse d m)) i -> f x fzero = x).
Proof. exact @merge_into_dense_sparse. Qed.
Print Assumptions C07_merge_dense_sparse.

Theorem C07_merge_dense_sparse_entries : forall F `{Scalar F} (la : list F) d m f,
  hm_ok m ->
  (merge_into (Dense la) (Sparse (MkSparse d m)) f = Panic <->
   exists i, stored (Sparse (MkSparse d m)) i /\ length la <= i) /\
  forall c, merge_into (Dense la) (Sparse (MkSparse d m)) f = Ret c ->
    exists l, c = Dense l /\ length l = length la /\
    forall i x, nth_error la i = Some x ->
      (forall v, stores (Sparse (MkSparse d m)) i v -> nth_error l i = Some (f x v)) /\
      (~ stored (Sparse (MkSparse d m)) i -> nth_error l i = Some x).
Proof. exact @merge_into_ds_entries. Qed.
Print Assumptions C07_merge_dense_sparse_entries.

Theorem C07_merge_sparse_sparse : forall F `{Scalar F} d1 m1 d2 m2 (f : F -> F -> F) la lb,
  wf (Sparse (MkSparse d1 m1)) -> wf (Sparse (MkSparse d2 m2)) ->
  expands (Sparse (MkSparse d1 m1)) la -> expands (Sparse (MkSparse d2 m2)) lb ->
  exists c, merge_into (Sparse (MkSparse d1 m1)) (Sparse (MkSparse d2 m2)) f = Ret c /\
    wf c /\ is_sparse c = true /\ size c = Nat.max d1 d2 /\
    (expands c (map (fun i => f (nth i la fzero) (nth i lb fzero)) (seq 0 (Nat.max d1 d2))) <->
     f fzero fzero = fzero \/
     forall i, i < Nat.max d1 d2 ->
       stored (Sparse (MkSparse d1 m1)) i \/ stored (Sparse (MkSparse d2 m2)) i).
Proof. exact @merge_into_sparse_sparse. Qed.
Print Assumptions C07_merge_sparse_sparse.

(** Multiplying a dense vector by a sparse one is not pointwise multiplication. *)
Theorem C07_merge_product_refuted : exists (la lb l : list R) d m,
  wf (Sparse (MkSparse d m)) /\ expands (Sparse (MkSparse d m)) lb /\ d = length la /\
  merge_into (Dense la) (Sparse (MkSparse d m)) Rmult = Ret (Dense l) /\ l <> map2 Rmult la lb.
Proof.
  exists [3; 5]%R, [0; 2]%R, [3; 5 * 2]%R, 2, [(1, 2%R)].
  split; [wf_tac|]. split.
  - split; auto. intros [|[|[|i]]] v V; simpl in V; inversion V; subst.
    + right. rewrite fzero_R. split; auto. intros [u [E|[]]]. inversion E.
    + left. simpl. auto.
  - split; [reflexivity|]. split; [reflexivity|]. simpl. intros E. inversion E. lra.
Qed.
Print Assumptions C07_merge_product_refuted.

(** ** C08 *)

Theorem C08_merge_flavours : forall F `{Scalar F} (a b : Features F) f,
  merge_inplace a b f = merge_into a b f /\
  match a, b with
  | Sparse sa, Dense lb =>
      (sa_dim sa <= length lb -> merge a b f = merge_into a b f) /\
      (length lb < sa_dim sa -> merge a b f = Panic /\
         exists l, merge_into a b f = Ret (Dense l) /\ length l = sa_dim sa)
  | _, _ => merge a b f = merge_into a b f
  end.
Proof. intros F S a b f. split; [reflexivity|apply merge_agree]. Qed.
Print Assumptions C08_merge_flavours.

(** ... and layouts do not matter for either. *)
Theorem C08_merge_layouts : forall F `{Scalar F} (a a' b b' : Features F) f,
  keyed a -> keyed b -> same a a' -> same b b' ->
  same_outcome (merge a b f) (merge a' b' f) /\
  same_outcome (merge_into a b f) (merge_into a' b' f).
Proof. intros F S a a' b b' f Ka Kb Ea Eb. split; [apply merge_same|apply merge_into_same]; assumption. Qed.
Print Assumptions C08_merge_layouts.

Example C08_case : merge ex_sparse (Dense [1%R]) Rplus = Panic /\
  merge_into ex_sparse (Dense [1%R]) Rplus =
  Ret (Dense [fzero + 1; -2 + fzero; fzero + fzero; 7 + fzero; fzero + fzero]%R).
Proof. split; reflexivity. Qed.

(** ** C09 *)

Theorem C09_remove : forall F `{Scalar F} (is : list nat) (phi : Features F), wf phi ->
  wf (fold_left remove is phi) /\ size (fold_left remove is phi) = size phi /\
  is_sparse (fold_left remove is phi) = is_sparse phi /\
  forall l l', expands phi l -> expands (fold_left remove is phi) l' ->
    forall k, nth_error l' k =
      if existsb (Nat.eqb k) is then option_map (fun _ => fzero) (nth_error l k)
      else nth_error l k.
Proof. exact @removes_spec. Qed.
Print Assumptions C09_remove.

Theorem C09_remove_laws : forall F `{Scalar F} (phi : Features F) i j, keyed phi ->
  remove (remove phi i) i = remove phi i /\
  same (remove (remove phi i) j) (remove (remove phi j) i) /\
  (bounded phi -> size phi <= i -> remove phi i = phi).
Proof.
  intros F S phi i j K. split; [apply remove_idem|]. split; [apply remove_comm, K|].
  apply remove_out_of_range.
Qed.
Print Assumptions C09_remove_laws.

(** After removal a sparse index is no longer stored. *)
Theorem C09_remove_sparse : forall F `{Scalar F} (phi : Features F) i k v,
  keyed phi -> is_sparse phi = true ->
  (stores (remove phi i) k v <-> k <> i /\ stores phi k v).
Proof. exact @remove_stores. Qed.
Print Assumptions C09_remove_sparse.

Example C09_case : fold_left remove [3; 9] ex_sparse = Sparse (MkSparse 5 [(1, (-2)%R)]).
Proof. reflexivity. Qed.

(** ** C10 *)

Theorem C10_index : forall F `{Scalar F} (phi : Features F) i l, wf phi -> expands phi l -> i < size phi ->
  (is_sparse phi = false -> exists v, index phi i = Ret v /\ nth_error l i = Some v) /\
  (is_sparse phi = true ->
     exists v x, index phi i = Ret v /\ nth_error l i = Some x /\
       (v = x <-> forall u, stores phi i u -> u = fone)).
Proof. exact @index_spec. Qed.
Print Assumptions C10_index.

Theorem C10_index_panic : forall F `{Scalar F} (phi : Features F) i,
  index phi i = Panic <-> is_sparse phi = false /\ size phi <= i.
Proof. exact @index_panic. Qed.
Print Assumptions C10_index_panic.

Theorem C10_get : forall F (phi : Features F) i, keyed phi ->
  forall v, get phi i = Some v <-> stores phi i v.
Proof. exact @get_spec. Qed.
Print Assumptions C10_get.

Theorem C10_index_ignores_activation_refuted : exists (phi : Features R) i l,
  wf phi /\ expands phi l /\ i < size phi /\ index phi i = Ret 1%R /\ nth_error l i = Some 7%R.
Proof.
  exists ex_sparse, 3, [fzero; -2; fzero; 7; fzero]%R. split; [exact ex_sparse_wf|]. split.
  - apply (proj1 (C01_dense_expansion R ex_sparse (proj1 ex_sparse_wf)) _). reflexivity.
  - simpl. rewrite fone_R. repeat split; auto.
Qed.
Print Assumptions C10_index_ignores_activation_refuted.

(** ** C11 *)

Theorem C11_dot_features : forall (a b : Features R) la lb, wf a -> wf b -> size a = size b ->
  expands a la -> expands b lb -> is_sparse a && is_sparse b = false ->
  dot_features a b = Ret (rdot la lb).
Proof. exact dot_features_spec. Qed.
Print Assumptions C11_dot_features.

Theorem C11_dot_sparse_counts : forall F `{Scalar F} d1 m1 d2 m2, hm_ok m1 -> hm_ok m2 ->
  exists l, NoDup l /\
    (forall i, In i l <-> stored (Sparse (MkSparse d1 m1)) i /\ stored (Sparse (MkSparse d2 m2)) i) /\
    dot_features (Sparse (MkSparse d1 m1)) (Sparse (MkSparse d2 m2)) = Ret (fofnat (length l)).
Proof. exact @dot_features_sparse. Qed.
Print Assumptions C11_dot_sparse_counts.

(** Hence right exactly when the inner product is that count. *)
Theorem C11_dot_sparse_iff : forall d1 m1 d2 m2 la lb,
  wf (Sparse (MkSparse d1 m1)) -> wf (Sparse (MkSparse d2 m2)) -> d1 = d2 ->
  expands (Sparse (MkSparse d1 m1)) la -> expands (Sparse (MkSparse d2 m2)) lb ->
  (dot_features (Sparse (MkSparse d1 m1)) (Sparse (MkSparse d2 m2)) = Ret (rdot la lb) <->
   forall l, NoDup l ->
     (forall i, In i l <-> stored (Sparse (MkSparse d1 m1)) i /\ stored (Sparse (MkSparse d2 m2)) i) ->
     rsum (map (fun i => nth i la 0 * nth i lb 0)%R l) = INR (length l)).
Proof. exact dot_features_iff. Qed.
Print Assumptions C11_dot_sparse_iff.

Theorem C11_dot_unitary : forall (a b : Features R) la lb, wf a -> wf b -> size a = size b ->
  is_sparse a = true -> is_sparse b = true ->
  (forall i v, stores a i v -> v = 1%R) -> (forall i v, stores b i v -> v = 1%R) ->
  expands a la -> expands b lb -> dot_features a b = Ret (rdot la lb).
Proof. exact dot_features_unitary. Qed.
Print Assumptions C11_dot_unitary.

Theorem C11_dot_symmetric : forall a b : Features R, wf a -> wf b -> size a = size b ->
  dot_features a b = dot_features b a.
Proof. exact dot_features_sym. Qed.
Print Assumptions C11_dot_symmetric.

Theorem C11_dot_sparse_refuted : exists (a : Features R) la,
  wf a /\ expands a la /\ dot_features a a = Ret 2%R /\ rdot la la = 53%R.
Proof.
  exists ex_sparse, [fzero; -2; fzero; 7; fzero]%R. split; [exact ex_sparse_wf|]. split.
  - apply (proj1 (C01_dense_expansion R ex_sparse (proj1 ex_sparse_wf)) _). reflexivity.
  - split; [simpl; f_equal; lra|]. unfold rdot. simpl. rewrite fzero_R. lra.
Qed.
Print Assumptions C11_dot_sparse_refuted.

(** ** C12 *)

Theorem C12_sparse : forall F d (ps : list (nat * F)),
  keyed (sparse d ps) /\ size (sparse d ps) = d /\ is_sparse (sparse d ps) = true /\
  forall i v, stores (sparse d ps) i v <->
    exists p q, ps = p ++ (i, v) :: q /\ ~ In i (map fst q).
Proof. exact @sparse_spec. Qed.
Print Assumptions C12_sparse.

Theorem C12_unitary : forall F `{Scalar F} d (is : list nat),
  keyed (unitary d is) /\ size (unitary d is) = d /\ is_sparse (unitary d is) = true /\
  forall i v, stores (unitary d is) i v <-> In i is /\ v = fone.
Proof. exact @unitary_spec. Qed.
Print Assumptions C12_unitary.

Theorem C12_from_indices : forall F `{Scalar F} (is : list nat),
  (from_indices is = Panic <-> is = []) /\
  forall phi, from_indices is = Ret phi ->
    wf phi /\ is_sparse phi = true /\
    (forall i v, stores phi i v <-> In i is /\ v = fone) /\
    (forall i, In i is -> i < size phi) /\ exists i, In i is /\ size phi = S i.
Proof. exact @from_indices_spec. Qed.
Print Assumptions C12_from_indices.

Theorem C12_from_sparse_activations : forall F d (m : hmap F), hm_ok m ->
  (from_sparse_activations (MkSparse d m) = Panic <-> m = []) /\
  forall phi, from_sparse_activations (MkSparse d m) = Ret phi ->
    wf phi /\ is_sparse phi = true /\
    (forall i v, stores phi i v <-> In (i, v) m) /\
    exists i, stored phi i /\ size phi = S i.
Proof. exact @from_sparse_activations_spec. Qed.
Print Assumptions C12_from_sparse_activations.

(** The declared dimension is lost. *)
Theorem C12_from_sparse_activations_dim_refuted : exists (m : hmap R) phi,
  wf (Sparse (MkSparse 5 m)) /\ from_sparse_activations (MkSparse 5 m) = Ret phi /\ size phi = 4.
Proof. exists [(3, 7%R); (1, (-2)%R)]. eexists. split; [exact ex_sparse_wf|]. split; reflexivity. Qed.
Print Assumptions C12_from_sparse_activations_dim_refuted.

Example C12_case : sparse 5 [(3, 1%R); (1, (-2)%R); (3, 7%R)] = ex_sparse /\
  from_indices [4; 0; 4] = Ret (Sparse (MkSparse 5 [(4, fone : R); (0, fone)])).
Proof. split; reflexivity. Qed.

(** ** C13 *)

Theorem C13_equality : forall F `{Scalar F} (a b : Features F), keyed a -> keyed b ->
  (features_eqb a b = Panic <-> is_sparse a <> is_sparse b) /\
  (features_eqb a b = Ret true <-> ieee_equal a b) /\
  (features_eqb a b = Ret false <-> is_sparse a = is_sparse b /\ ~ ieee_equal a b).
Proof. exact @features_eqb_spec. Qed.
Print Assumptions C13_equality.

Theorem C13_equality_layouts : forall F `{Scalar F} (a a' b b' : Features F), keyed a -> keyed b ->
  same a a' -> same b b' -> features_eqb a b = features_eqb a' b'.
Proof. exact @features_eqb_same. Qed.
Print Assumptions C13_equality_layouts.

Theorem C13_equality_f64 : forall P (a b c : Features f64), keyed a -> keyed b -> keyed c ->
  let eqb := @features_eqb f64 (ScalarF64 P) in
  eqb a b = eqb b a /\
  (eqb a b = Ret true -> eqb b c = Ret true -> eqb a c = Ret true) /\
  (eqb a a = Ret true <-> forall i v, stores a i v -> is_nan v = false) /\
  (eqb a b = Ret true -> forall la lb,
     @expands f64 (ScalarF64 P) a la -> @expands f64 (ScalarF64 P) b lb ->
     Forall2 (fun x y => Beqb x y = true) la lb).
Proof. exact equality_f64. Qed.
Print Assumptions C13_equality_f64.

Example C13_case :
  let eqb := @features_eqb f64 (ScalarF64 SimplePlatform) in
  let phi := Sparse (MkSparse 4 [(2, B754_zero true); (0, b_dyadic 3 0)]) in
  let psi := Sparse (MkSparse 4 [(0, b_dyadic 3 0); (2, B754_zero false)]) in
  let bad := Sparse (MkSparse 4 [(2, B754_nan); (0, b_dyadic 3 0)]) in
  eqb phi psi = Ret true /\ eqb bad bad = Ret false /\ eqb phi (Dense []) = Panic.
Proof. vm_compute. auto. Qed.

(** ** C14 *)

Theorem C14_n_active_sparse : forall F `{Scalar F} d (m : hmap F), hm_ok m ->
  exists l, NoDup l /\ (forall i, In i l <-> stored (Sparse (MkSparse d m)) i) /\
            n_active (Sparse (MkSparse d m)) = length l.
Proof. exact @n_active_sparse. Qed.
Print Assumptions C14_n_active_sparse.

Theorem C14_n_active_dense : forall F `{Scalar F} (da : list F),
  exists l, NoDup l /\
    (forall i, In i l <-> exists v, nth_error da i = Some v /\ fltb (flit 1 10000000) (fabs v) = true) /\
    n_active (Dense da) = length l.
Proof. exact @n_active_dense. Qed.
Print Assumptions C14_n_active_dense.

Theorem C14_n_active_expand : forall (phi : Features R) l, wf phi -> expands phi l ->
  n_active (Dense l) <= n_active phi /\
  (is_sparse phi = true ->
   (n_active (Dense l) = n_active phi <->
    forall i v, stores phi i v -> (1 / 10000000 < Rabs v)%R)).
Proof. exact n_active_expand_R. Qed.
Print Assumptions C14_n_active_expand.

Theorem C14_n_active_expand_f64 : forall P (phi : Features f64) l,
  wf phi -> @expands f64 (ScalarF64 P) phi l ->
  @n_active f64 (ScalarF64 P) (Dense l) <= @n_active f64 (ScalarF64 P) phi /\
  (is_sparse phi = true ->
   (@n_active f64 (ScalarF64 P) (Dense l) = @n_active f64 (ScalarF64 P) phi <->
    forall i v, stores phi i v -> Bltb (b_div (b_dyadic 1 0) (b_dyadic 10000000 0)) (Babs v) = true)).
Proof. exact n_active_expand_f64. Qed.
Print Assumptions C14_n_active_expand_f64.

Example C14_case : n_active ex_sparse = 2 /\ wf ex_sparse.
Proof. split; [reflexivity|exact ex_sparse_wf]. Qed.

(** ** C15 *)

Theorem C15_scaled_addto : forall F `{Scalar F} (phi : Features F) a w, keyed phi -> fits phi w ->
  exists w', scaled_addto phi a w = Ret w' /\ length w' = length w /\
    forall i x, nth_error w i = Some x ->
      (forall v, stores phi i v -> nth_error w' i = Some (fadd x (fmul a v))) /\
      (~ stored phi i -> nth_error w' i = Some x).
Proof. exact @scaled_addto_spec. Qed.
Print Assumptions C15_scaled_addto.

Theorem C15_addto : forall F `{Scalar F} (phi : Features F) w, keyed phi -> fits phi w ->
  exists w', addto phi w = Ret w' /\ length w' = length w /\
    forall i x, nth_error w i = Some x ->
      (forall v, stores phi i v -> nth_error w' i = Some (fadd x v)) /\
      (~ stored phi i -> nth_error w' i = Some x).
Proof. exact @addto_spec. Qed.
Print Assumptions C15_addto.

(** Outside [fits]: a one-element dense vector is broadcast, all else panics. *)
Theorem C15_misfit : forall F `{Scalar F} (phi : Features F) a w, keyed phi -> ~ fits phi w ->
  (exists x, phi = Dense [x] /\
     scaled_addto phi a w = Ret (map (fun y => fadd y (fmul a x)) w) /\
     addto phi w = Ret (map (fun y => fadd y x) w)) \/
  ((forall x, phi <> Dense [x]) /\ scaled_addto phi a w = Panic /\ addto phi w = Panic).
Proof. exact @addto_misfits. Qed.
Print Assumptions C15_misfit.

Theorem C15_addto_is_scaled : forall (phi : Features R) w, addto phi w = scaled_addto phi 1%R w.
Proof. exact addto_one_R. Qed.
Print Assumptions C15_addto_is_scaled.

Theorem C15_addto_is_scaled_f64 : forall P (phi : Features f64) w,
  @addto f64 (ScalarF64 P) phi w = @scaled_addto f64 (ScalarF64 P) phi (b_dyadic 1 0) w.
Proof. exact addto_one_f64. Qed.
Print Assumptions C15_addto_is_scaled_f64.

Example C15_case : fits ex_sparse [0; 1; 2; 3; 4]%R /\
  scaled_addto ex_sparse 2%R [0; 1; 2; 3; 4]%R = Ret [0; 1 + 2 * -2; 2; 3 + 2 * 7; 4]%R.
Proof. split; [|reflexivity]. apply wf_fits; [exact ex_sparse_wf|reflexivity]. Qed.
