(** C63: what a caught panic leaves behind. Statements only; proofs are in
    UnwindFacts.v and UnwindMore.v. *)
From Coq Require Import List Arith ZArith Lia Bool Reals Lra Permutation.
From Verif Require Import Base Scalar ScalarR HMap HMapFacts NdArray VecFacts Features Spec FeatureFacts
  Optim OptimSpec OptimFacts OptimOrder OptimMisfit Lfa LfaSpec LfaFacts Coeffs Kernels TileCoding Basis BasisFacts
  Unwind UnwindFacts UnwindMore.
Import ListNotations.

(** The model that keeps the state at a panic is the main model wherever the
    main model gives a state, and unwinds exactly where it panics. *)
Theorem C63_same_machine : forall F `{Scalar F} (o : lib_opt F) w phi sf,
  match lib_u o w phi sf with
  | (o', w', true) => lib_step_scaled o w phi sf = Ret (o', w', Ok tt)
  | (_, _, false) => lib_step_scaled o w phi sf = Panic
  end.
Proof. intros F S. exact left_agrees. Qed.
Print Assumptions C63_same_machine.

(** The writes themselves: dense activations that do not fit change nothing;
    sparse ones are applied up to the first index past the weights. *)
Theorem C63_addto : forall F `{Scalar F} (phi : Features F) w,
  match addto_u phi w with
  | (w', true) => addto phi w = Ret w'
  | (w', false) => addto phi w = Panic /\ length w' = length w /\
      match phi with
      | Dense _ => w' = w
      | Sparse sa => exists before k v after, sa_acts sa = before ++ (k, v) :: after /\ length w <= k /\
          (forall kv, In kv before -> fst kv < length w) /\ addto (Sparse (MkSparse (sa_dim sa) before)) w = Ret w'
      end
  end.
Proof. intros F S. exact addto_left. Qed.
Print Assumptions C63_addto.

Theorem C63_scaled_addto : forall F `{Scalar F} (phi : Features F) alpha w,
  match scaled_addto_u phi alpha w with
  | (w', true) => scaled_addto phi alpha w = Ret w'
  | (w', false) => scaled_addto phi alpha w = Panic /\ length w' = length w /\
      match phi with
      | Dense _ => w' = w
      | Sparse sa => exists before k v after, sa_acts sa = before ++ (k, v) :: after /\ length w <= k /\
          (forall kv, In kv before -> fst kv < length w) /\ scaled_addto (Sparse (MkSparse (sa_dim sa) before)) alpha w = Ret w'
      end
  end.
Proof. intros F S. exact scaled_addto_left. Qed.
Print Assumptions C63_scaled_addto.

Example C63_addto_case : forall u v x a b alpha : R,
  addto_u (Sparse (MkSparse 3 [(1, v); (2, u); (0, x)])) [a; b] = ([a; b + v]%R, false) /\
  scaled_addto_u (Sparse (MkSparse 3 [(1, v); (2, u); (0, x)])) alpha [a; b] = ([a; b + alpha * v]%R, false).
Proof. intros. split; reflexivity. Qed.

(** Whatever happens in a step, the weights and the optimiser keep their sizes,
    so training goes on after a caught panic: every later history of features
    of the right size runs to its end. *)
Theorem C63_still_usable : forall F `{Scalar F} (o : lib_opt F) w phi sf o' w' ok h,
  lib_u o w phi sf = (o', w', ok) -> opt_sized (length w) o -> well_sized (length w) h ->
  length w' = length w /\ opt_sized (length w) o' /\
  exists o'' w'', train LibOptimiser h o' w' = Ret (o'', w'') /\ length w'' = length w /\ opt_sized (length w) o''.
Proof.
  intros F S o w phi sf o' w' ok h E O W. destruct (left_sized _ _ _ _ _ _ _ E) as [L K]. splits; auto.
  exact (left_usable o w phi sf o' w' ok h E O W).
Qed.
Print Assumptions C63_still_usable.

(** A step that unwinds half way through, then a step that works. *)
Example C63_still_usable_case :
  let o := LSGD 1%R in let bad := Sparse (MkSparse 3 [(1, 2%R); (2, 5%R)]) in
  lib_u o [0; 0]%R bad 1%R = (o, [0; 0 + 1 * 1 * 2]%R, false) /\ opt_sized 2 o /\
  well_sized 2 [(Dense [1; 1]%R, 1%R)] /\
  train LibOptimiser [(Dense [1; 1]%R, 1%R)] o [0; 0 + 1 * 1 * 2]%R = Ret (o, [0 + 1 * 1 * 1; 0 + 1 * 1 * 2 + 1 * 1 * 1]%R).
Proof.
  intros o bad. splits; try reflexivity; try exact I.
  constructor; [split; [apply wf_dense|reflexivity]|constructor].
Qed.

(** Dense features of the wrong size. SGD, ISGD, Momentum and NAG change
    nothing. Adam and AdaMax have completed the step on the activations that
    fit. (Adagrad on dense features only panics for a mismatched state.) *)
Theorem C63_dense : forall F `{Scalar F} (o : lib_opt F) w da sf o' w', opt_sized (length w) o ->
  lib_u o w (Dense da) sf = (o', w', false) ->
  match o with
  | LSGD _ | LISGD _ | LMomentum _ | LNAG _ => o' = o /\ w' = w
  | LAdagrad _ => False
  | LAdam _ | LAdaMax _ => lib_step_scaled o w (Dense (firstn (length w) da)) sf = Ret (o', w', Ok tt)
  end.
Proof.
  intros F S o w da sf o' w' O E. destruct (left_dense o w da sf o' w' O E) as [(St & A & B)|(Ad & B)]; destruct o; simpl in *; tauto.
Qed.
Print Assumptions C63_dense.

(** Adam steps the one weight there is before it panics. *)
Example C63_dense_case : forall lr b2 e : R, exists o' w',
  let o := LAdam (MkAdam (1 / 2) (1 / 2) b2 b2 lr [0] [0])%R in
  lib_u o [0%R] (Dense [1; 1]%R) e = (o', w', false) /\ opt_sized 1 o /\ o' <> o.
Proof.
  intros lr b2 e. eexists. eexists. intros o. split; [reflexivity|]. split; [split; reflexivity|]. intros E.
  apply (f_equal (fun o => match o with LAdam s => ad_beta1_prod s | _ => 0%R end)) in E.
  cbv [o ad_beta1_prod ad_beta1 fmul ScalarR] in E. lra.
Qed.

(** Sparse features with an index past the weights: the activations iterated
    before the first such index have been applied, those after it have not. *)
Theorem C63_sparse : forall F `{Scalar F} (o : lib_opt F) w d (m : hmap F) sf o' w', opt_sized (length w) o ->
  lib_u o w (Sparse (MkSparse d m)) sf = (o', w', false) ->
  exists before k v after, m = before ++ (k, v) :: after /\ length w <= k /\
    (forall kv, In kv before -> fst kv < length w) /\
    match o with
    | LSGD lr => o' = o /\ scaled_addto (Sparse (MkSparse d before)) (fmul lr sf) w = Ret w'
    | LISGD lr => o' = o /\
        scaled_addto (Sparse (MkSparse d before)) (fmul (isgd_compute_lr lr (Sparse (MkSparse d m))) sf) w = Ret w'
    | LMomentum _ | LNAG _ => w' = w /\
        exists w1, lib_step_scaled o w (Sparse (MkSparse d before)) sf = Ret (o', w1, Ok tt)
    | LAdagrad _ => False
    | LAdam _ | LAdaMax _ => lib_step_scaled o w (Sparse (MkSparse d before)) sf = Ret (o', w', Ok tt)
    end.
Proof. intros F S. exact left_sparse. Qed.
Print Assumptions C63_sparse.

Example C63_sparse_case : forall v u x : R,
  let o := LMomentum (MkMomentum 0 1 [0; 0])%R in
  opt_sized 2 o /\
  lib_u o [7; 7]%R (Sparse (MkSparse 3 [(1, v); (2, u); (0, x)])) 1%R =
    (LMomentum (MkMomentum 0 1 [0 * 0; 0 * 0 + v * 1])%R, [7; 7]%R, false).
Proof. intros v u x. split; reflexivity. Qed.

(** So a panicking step is not atomic, and what it leaves depends on the
    iteration order of the hash map. *)
Theorem C63_atomic_refuted : forall F `{Scalar F} (lr sf a b v u : F),
  exists (m1 m2 : hmap F), Permutation m1 m2 /\ NoDup (hm_keys m1) /\
    lib_u (LSGD lr) [a; b] (Sparse (MkSparse 6 m1)) sf = (LSGD lr, [fadd a (fmul (fmul lr sf) v); b], false) /\
    lib_u (LSGD lr) [a; b] (Sparse (MkSparse 6 m2)) sf = (LSGD lr, [a; b], false).
Proof.
  intros. exists [(0, v); (5, u)], [(5, u); (0, v)]. splits; auto.
  - apply perm_swap.
  - simpl. repeat constructor; simpl; lia.
Qed.
Print Assumptions C63_atomic_refuted.

(** Momentum and NAG update the velocity before the weights are looked at. *)
Theorem C63_velocity_refuted : forall F `{Scalar F} (mu lr sf v x : F) (w : list F), length w = 3 ->
  exists phi v', lib_u (LMomentum (MkMomentum mu lr [v; v])) w phi sf = (LMomentum (MkMomentum mu lr v'), w, false) /\
    v' = [fadd (fmul mu v) (fmul x sf); fadd (fmul mu v) (fmul x sf)].
Proof.
  intros F S mu lr sf v x [|a [|b [|c [|]]]] L; try discriminate. exists (Dense [x; x]). eexists. split; reflexivity.
Qed.
Print Assumptions C63_velocity_refuted.

(** Adagrad with more accumulators than weights, on sparse features: every
    weight has been stepped, and one accumulator past the weights has grown. *)
Theorem C63_adagrad : forall F `{Scalar F} lr (acc1 acc2 : list F) s w d (m : hmap F) sf, length acc1 = length w ->
  exists acc' w', lib_step_scaled (LAdagrad (MkAdagrad lr acc1)) w (Sparse (MkSparse d m)) sf =
      Ret (LAdagrad (MkAdagrad lr acc'), w', Ok tt) /\
    lib_u (LAdagrad (MkAdagrad lr (acc1 ++ s :: acc2))) w (Sparse (MkSparse d m)) sf =
      (LAdagrad (MkAdagrad lr (acc' ++ fadd s (fpowi (fmul (get_or_zero m (length w)) sf) 2) :: acc2)), w', false).
Proof. intros F S. exact adagrad_overrun. Qed.
Print Assumptions C63_adagrad.

Example C63_adagrad_case : length [1; 1]%R = length [0; 0]%R /\
  snd (lib_u (LAdagrad (MkAdagrad 1%R ([1; 1] ++ 1 :: [1])%R)) [0; 0]%R (Sparse (MkSparse 4 [(2, 3%R)])) 1%R) = false.
Proof. split; reflexivity. Qed.

(** The scalar approximator. *)
Theorem C63_scalar_update : forall F I `{Scalar F} (a : ScalarLFA F I (lib_opt F)) x e,
  match s_update_u a x e with
  | (a', Some r) => s_update LibOptimiser a x e = Ret (a', r)
  | (a', None) => s_update LibOptimiser a x e = Panic
  end /\
  let a' := fst (s_update_u a x e) in
  lfa_basis a' = lfa_basis a /\ length (lfa_weights a') = length (lfa_weights a) /\
  (forall n, opt_sized n (lfa_optimiser a) -> opt_sized n (lfa_optimiser a')) /\
  (~ (exists phi, b_project (lfa_basis a) x = Ret (Ok phi)) -> a' = a).
Proof. intros F I S. exact s_update_left. Qed.
Print Assumptions C63_scalar_update.

Example C63_scalar_update_case :
  let a := MkLFA (MkBasis 3 (fun _ : unit => Ret (Ok (Sparse (MkSparse 3 [(0, 1%R); (2, 1%R)])))) ) [4; 4]%R (LSGD 1%R) in
  s_update_u a tt 2%R = (with_state a [4 + 1 * 2 * 1; 4]%R (LSGD 1%R), None).
Proof. reflexivity. Qed.

(** The vector approximator: it panics in some column [k]; the columns before
    it are those of a completed update with the first [k] errors, column [k] is
    what the optimiser left, the columns after it have not been touched. *)
Theorem C63_vector_update : forall F I `{Scalar F} (v : VectorLFA F I (lib_opt F)) x es, matrix_ok (lfa_weights v) ->
  match v_update_u v x es with
  | (v', Some r) => v_update LibOptimiser v x es = Ret (v', r)
  | (v', None) => v_update LibOptimiser v x es = Panic /\
      match b_project (lfa_basis v) x with
      | Ret (Ok phi) => exists k e vk r c c', nth_error es k = Some e /\ k < n_outputs v /\
          v_update LibOptimiser v x (firstn k es) = Ret (vk, r) /\
          column (lfa_weights v) k = Ret c /\
          lib_u (lfa_optimiser vk) c phi e = (lfa_optimiser v', c', false) /\
          column (lfa_weights v') k = Ret c' /\
          (forall i, i < k -> column (lfa_weights v') i = column (lfa_weights vk) i) /\
          (forall i, k < i -> column (lfa_weights v') i = column (lfa_weights v) i) /\
          lfa_basis v' = lfa_basis v /\ matrix_ok (lfa_weights v') /\
          nrows (lfa_weights v') = nrows (lfa_weights v) /\ n_outputs v' = n_outputs v
      | _ => v' = v
      end
  end.
Proof.
  intros F I S v x es OK. pose proof (v_update_agrees v x es OK) as A.
  destruct (v_update_u v x es) as [v' [r|]] eqn:U; auto. split; auto.
  destruct (b_project (lfa_basis v) x) as [[phi|er]|] eqn:P.
  - exact (v_update_left v x es v' phi OK P U).
  - unfold v_update_u in U. rewrite P in U. discriminate.
  - unfold v_update_u in U. rewrite P in U. congruence.
Qed.
Print Assumptions C63_vector_update.

(** Two outputs: the first column has been written, the second not. *)
Example C63_vector_update_case :
  let v := MkLFA (MkBasis 3 (fun _ : unit => Ret (Ok (Sparse (MkSparse 3 [(0, 1%R); (2, 1%R)])))) )
             (MkMatrix [[4; 5]; [6; 7]]%R 2) (LSGD 1%R) in
  matrix_ok (lfa_weights v) /\
  v_update_u v tt [2; 3]%R = (with_state v (MkMatrix [[4 + 1 * 2 * 1; 5]; [6; 7]]%R 2) (LSGD 1%R), None).
Proof. split; [|reflexivity]. repeat constructor. Qed.

(** [map_inplace]: when the caller is left with zeroed bytes. *)
Theorem C63_map_inplace : forall F `{Scalar F} (phi : Features F) (f : F -> outcome F),
  (map_inplace_u phi f = (Zeroed, false) <->
   match phi with
   | Dense da => exists a, In a da /\ f a = Panic
   | Sparse sa => f fzero = Panic \/ (exists i v, stores phi i v /\ f v = Panic) \/
       (exists z i, f fzero = Ret z /\ fltb (fabs z) sparsity_tol = false /\ stored phi i /\ sa_dim sa <= i)
   end) /\
  (map_inplace_u phi f <> (Zeroed, false) ->
   exists phi', map_inplace_u phi f = (Valid phi', true) /\ fmap_into_p phi f = Ret phi').
Proof.
  intros F S phi f. split; [exact (map_inplace_zeroed phi f)|]. unfold map_inplace_u, inplace_u.
  destruct (fmap_into_p phi f) as [p|]; [eauto|congruence].
Qed.
Print Assumptions C63_map_inplace.

(** A closure that panics on zero. *)
Example C63_map_inplace_case : forall (v : R), v <> 0%R ->
  let f := fun x => if Reqb x 0 then Panic else Ret (/ x)%R in
  map_inplace_u (Dense [v; 0%R]) f = (Zeroed, false) /\ map_inplace_u (Dense [v; v]) f = (Valid (Dense [/ v; / v]%R), true) /\
  map_inplace_u (Sparse (MkSparse 2 [(1, v)])) f = (Zeroed, false).
Proof.
  intros v N f. assert (E : f v = Ret (/ v)%R) by (unfold f, Reqb; destruct (Req_EM_T v 0); [contradiction|reflexivity]).
  assert (Z : f 0%R = Panic) by (unfold f; rewrite (proj2 (Reqb_true 0 0) eq_refl); reflexivity).
  unfold map_inplace_u, inplace_u. cbn [fmap_into_p omapM sa_acts]. rewrite fzero_R, E, Z. splits; reflexivity.
Qed.

(** [merge_inplace], likewise. *)
Theorem C63_merge_inplace : forall F `{Scalar F} (phi other : Features F) (f : F -> F -> outcome F), keyed other ->
  (merge_inplace_u phi other f = (Zeroed, false) <->
   match phi, other with
   | Dense da1, Dense da2 =>
       (length da2 <> length da1 /\ length da2 <> 1) \/
       (exists i x y, nth_error da1 i = Some x /\ f x y = Panic /\
          (nth_error da2 i = Some y /\ length da2 = length da1 \/ da2 = [y]))
   | Dense da1, Sparse _ =>
       exists i y, stores other i y /\ (length da1 <= i \/ exists x, nth_error da1 i = Some x /\ f x y = Panic)
   | Sparse sa1, Dense da2 =>
       exists i, i < Nat.max (sa_dim sa1) (length da2) /\ f (get_or_zero (sa_acts sa1) i) (nth i da2 fzero) = Panic
   | Sparse sa1, Sparse sa2 =>
       (exists i x, stores phi i x /\ f x (get_or_zero (sa_acts sa2) i) = Panic) \/
       (exists i y, stores other i y /\ ~ stored phi i /\ f fzero y = Panic)
   end).
Proof. intros F S phi other f K. exact (merge_inplace_zeroed phi other f K). Qed.
Print Assumptions C63_merge_inplace.

Example C63_merge_inplace_case : forall u v x : R,
  keyed (Sparse (MkSparse 3 [(2, v)])) /\
  merge_inplace_u (Dense [u; u]) (Sparse (MkSparse 3 [(2, v)])) (fun a b => Ret (a + b)%R) = (Zeroed, false) /\
  merge_inplace_u (Dense [u; u]) (Dense [x]) (fun a b => Ret (a + b)%R) = (Valid (Dense [u + x; u + x]%R), true).
Proof. intros. splits; try reflexivity. simpl. repeat constructor. simpl. tauto. Qed.

(** Closures that return: the main model, and valid features whenever both
    vectors are well formed and of one size. *)
Theorem C63_inplace_pure : forall F `{Scalar F} (phi other : Features F) (f : F -> F) (g : F -> F -> F),
  map_inplace_u phi (fun x => Ret (f x)) =
    match fmap_inplace phi f with Ret r => (Valid r, true) | Panic => (Zeroed, false) end /\
  merge_inplace_u phi other (fun x y => Ret (g x y)) =
    match merge_inplace phi other g with Ret r => (Valid r, true) | Panic => (Zeroed, false) end /\
  (wf phi -> exists r, map_inplace_u phi (fun x => Ret (f x)) = (Valid r, true)) /\
  (wf phi -> wf other -> size phi = size other ->
     exists r, merge_inplace_u phi other (fun x y => Ret (g x y)) = (Valid r, true)).
Proof.
  intros F S phi other f g. destruct (inplace_pure phi other f g) as [A B]. splits; auto.
  - intros [K Bd]. destruct (fmap_inplace phi f) as [r|] eqn:E; [exists r; exact A|].
    exfalso. assert (X : map_inplace_u phi (fun x => Ret (f x)) = (Zeroed, false)) by exact A.
    apply map_inplace_zeroed in X. destruct phi as [da|[d m]].
    + destruct X as (a & _ & X). discriminate.
    + destruct X as [X|[(i & v & _ & X)|(z & i & _ & _ & St & L)]]; try discriminate.
      rewrite bounded_sparse in Bd. simpl in L. destruct St as [v I]. assert (i < d); [|lia].
      apply Bd. change i with (fst (i, v)). apply in_map. exact I.
  - intros [K1 B1] [K2 B2] Sz. destruct (merge_inplace phi other g) as [r|] eqn:E; [exists r; exact B|].
    exfalso. assert (X : merge_inplace_u phi other (fun x y => Ret (g x y)) = (Zeroed, false)) by exact B.
    apply merge_inplace_zeroed in X; auto. destruct phi as [da1|[d1 m1]], other as [da2|[d2 m2]]; simpl in Sz.
    + destruct X as [[X _]|(i & x & y & _ & X & _)]; [congruence|discriminate].
    + destruct X as (i & y & I & [L|(x & _ & X)]); [|discriminate]. rewrite bounded_sparse in B2.
      assert (i < d2); [|lia]. apply B2. change i with (fst (i, y)). apply in_map. exact I.
    + destruct X as (i & _ & X). discriminate.
    + destruct X as [(i & x & _ & X)|(i & y & _ & _ & X)]; discriminate.
Qed.
Print Assumptions C63_inplace_pure.

(** Well-formed vectors and a closure that always returns are not enough: with
    sizes that do not match, the caller's vector is gone and zeroed bytes are
    in its place. *)
Theorem C63_inplace_refuted : forall F `{Scalar F} (g : F -> F -> F) (a b x y z : F),
  exists phi other, wf phi /\ wf other /\ merge_inplace_u phi other (fun x y => Ret (g x y)) = (Zeroed, false).
Proof.
  intros. exists (Dense [a; b]), (Dense [x; y; z]). splits; try reflexivity; apply wf_dense.
Qed.
Print Assumptions C63_inplace_refuted.

(** Arrays filled through [MaybeUninit] are complete before [assume_init], and
    the merges that use them compute what the main model says. *)
Theorem C63_initialised : forall F `{Scalar F} (entry : nat -> outcome F) n arr, fill_uninit n entry = Ret arr ->
  exists l, assume_init arr = Some l /\ length l = n /\ forall i, i < n -> exists v, nth_error l i = Some v /\ entry i = Ret v.
Proof.
  intros F S entry n arr E. destruct (uninit_sound entry n arr E) as (l & A & M). exists l.
  assert (L : length l = n) by (rewrite (omapM_length _ _ _ M); apply seq_length). splits; auto.
  intros i Li. destruct (nth_error l i) as [v|] eqn:Nv; [|apply nth_error_None in Nv; lia].
  exists v. split; auto. pose proof (omapM_nth _ _ _ i M) as X. rewrite Nv, nth_error_seq, (proj2 (Nat.ltb_lt _ _) Li) in X. exact X.
Qed.
Print Assumptions C63_initialised.

(** [assume_init] yields an array exactly when nothing is missing from it. *)
Theorem C63_assume_init : forall F (arr : list (option F)) l, assume_init arr = Some l <-> arr = map Some l.
Proof.
  intros F arr l. split; [|intros ->; apply assume_init_some].
  revert l. induction arr as [|[x|] arr IH]; cbn [assume_init fold_right]; intros l E; try discriminate.
  - injection E as <-. reflexivity.
  - fold (assume_init arr) in E. destruct (assume_init arr) as [l'|]; [|discriminate]. injection E as <-. cbn [map]. f_equal. auto.
Qed.
Print Assumptions C63_assume_init.

Example C63_initialised_case : fill_uninit 3 (fun i => Ret (INR i)) = Ret [Some (INR 0); Some (INR 1); Some (INR 2)].
Proof. reflexivity. Qed.

Theorem C63_merge_initialised : forall F `{Scalar F} (sa : SparseActivations F) da (f : F -> F -> F),
  let n := Nat.max (sa_dim sa) (length da) in
  merge (Sparse sa) (Dense da) f =
    (let* arr := fill_uninit n (fun i => let* y := vget da i in Ret (f (get_or_zero (sa_acts sa) i) y)) in
     match assume_init arr with Some l => Ret (Dense l) | None => Panic end) /\
  merge_into (Sparse sa) (Dense da) f =
    (let* arr := fill_uninit n (fun i => Ret (f (get_or_zero (sa_acts sa) i) (nth i da fzero))) in
     match assume_init arr with Some l => Ret (Dense l) | None => Panic end).
Proof. intros F S. exact merge_uninit. Qed.
Print Assumptions C63_merge_initialised.

(** The unchecked read of [L0::ith] is within the allocation for every sound
    basis; a closure that gives fewer features than it claims breaks it. *)
Theorem C63_unchecked_read : forall F `{Scalar F} (b : basis F) x f idx,
  sound b -> project b x = Ret (Ok f) -> idx < dim b -> uget_in_bounds f idx = true.
Proof. intros F S. exact uget_reads. Qed.
Print Assumptions C63_unchecked_read.

Example C63_unchecked_read_case : sound (BFixedDense [1; 2]%R) /\
  project (BFixedDense [1; 2]%R) [] = Ret (Ok (Dense [1; 2]%R)) /\ 1 < dim (BFixedDense [1; 2]%R).
Proof. splits; simpl; auto. Qed.

Theorem C63_unchecked_read_refuted : forall F `{Scalar F} (v : F),
  exists (b : basis F) x f idx, project b x = Ret (Ok f) /\ idx < dim b /\ uget_in_bounds f idx = false.
Proof. intros. exists (BClosure 3 (fun _ => Ret (Ok (Dense [v])))), [], (Dense [v]), 2. splits; simpl; auto. Qed.
Print Assumptions C63_unchecked_read_refuted.
