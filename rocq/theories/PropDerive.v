(** C78, C79: saving and loading through the derived serde code. Proofs are in
    DeriveFacts.v and DeriveBasis.v; the derived code is modelled in Derive.v. *)
From Coq Require Import String List Arith Lia Permutation ZArith Reals.
From Verif Require Import Base Scalar ScalarR HMap NdArray Features Spec FeatureFacts VecFacts Coeffs Kernels TileCoding Basis
  BasisFacts Optim Lfa LfaSpec EndToEnd Serde SerdeFacts Derive DeriveFacts DeriveBasis.
Import ListNotations.
Local Open Scope string_scope.
Local Open Scope list_scope.
Local Open Scope nat_scope.

(** ** C78 *)

(** Whatever is saved, as maps or as sequences, loads as itself. *)
Theorem C78_optimiser : forall F `{Scalar F} sh (o : lib_opt F),
  de_opt (type_of_opt o) (ser_opt sh o) = Ret (DeOk o).
Proof. exact @de_opt_ser. Qed.
Print Assumptions C78_optimiser.

Theorem C78_kernel : forall F `{Scalar F} sh (k : kernel F),
  de_kernel (type_of_kernel k) (ser_kernel sh k) = Ret (DeOk k).
Proof. exact @de_kernel_ser. Qed.
Print Assumptions C78_kernel.

Theorem C78_error : forall F sh (e : error), @de_err F (ser_error sh e) = Ret (DeOk e).
Proof. exact @de_error_ser. Qed.
Print Assumptions C78_error.

(** The order of a map's entries is not part of it. *)
Theorem C78_features : forall F `{Scalar F} sh (f : Features F), (forall a, f = Sparse a -> NoDup (map fst (sa_acts a))) ->
  exists g, de_features (ser_features sh f) = Ret (DeOk g) /\
  match f, g with
  | Dense l, Dense l' => l = l'
  | Sparse a, Sparse a' => sa_dim a = sa_dim a' /\ Permutation (sa_acts a) (sa_acts a')
  | _, _ => False
  end.
Proof.
  intros F H sh f O. exists f. split; [now apply de_features_ser|]. destruct f; auto.
Qed.
Print Assumptions C78_features.

(** A basis loads as itself, but for the order in which the set of a [Fixed]
    basis is walked and the polynomials of a Chebyshev basis ([reloaded]). *)
Theorem C78_basis : forall F `{Scalar F} X sh t (b : basis F), has_type t b -> savable X b ->
  exists c, de_basis X t (ser_basis X sh b) = Ret (DeOk c) /\ reloaded b c.
Proof. exact @de_basis_ser. Qed.
Print Assumptions C78_basis.

(** [plain]: no such set, and every Chebyshev basis as [new] builds it. *)
Theorem C78_scalar : forall F `{Scalar F} X sh t (a : saved F (list F)),
  has_type t (sv_basis a) -> savable X (sv_basis a) -> plain (sv_basis a) ->
  de_scalar X t (type_of_opt (sv_optimiser a)) (ser_scalar X sh a) = Ret (DeOk a).
Proof.
  intros F H X sh t a T V P. unfold de_scalar, ser_scalar.
  rewrite (de_lfa_ser ser_array1 de_array1 X sh t a (sv_basis a)).
  - destruct a. reflexivity.
  - now apply de_basis_plain.
  - apply de_array1_ser.
Qed.
Print Assumptions C78_scalar.

Theorem C78_vector : forall F `{Scalar F} X sh t (a : saved F (matrix F)),
  has_type t (sv_basis a) -> savable X (sv_basis a) -> plain (sv_basis a) ->
  Forall (fun row => length row = mcols (sv_weights a)) (mrows (sv_weights a)) ->
  de_vector X t (type_of_opt (sv_optimiser a)) (ser_vector X sh a) = Ret (DeOk a).
Proof.
  intros F H X sh t a T V P M. unfold de_vector, ser_vector.
  rewrite (de_lfa_ser ser_array2 de_array2 X sh t a (sv_basis a)).
  - destruct a. reflexivity.
  - now apply de_basis_plain.
  - now apply de_array2_ser.
Qed.
Print Assumptions C78_vector.

(** The approximator a saved value is. *)
Definition running {F} `{Scalar F} {W} (a : saved F W) : LFA F (list F) W (lib_opt F) :=
  MkLFA (as_basis (sv_basis a)) (sv_weights a) (sv_optimiser a).

(** Training, saving, loading and training on is training without a break. *)
Theorem C78_resume : forall F `{Scalar F} X sh t (a : saved F (list F)) h1 h2 (a1 : ScalarLFA F (list F) (lib_opt F)),
  has_type t (sv_basis a) -> savable X (sv_basis a) -> plain (sv_basis a) ->
  s_run LibOptimiser h1 (running a) = Ret a1 ->
  exists a2, de_scalar X t (type_of_opt (lfa_optimiser a1))
      (ser_scalar X sh (MkSaved (sv_basis a) (lfa_weights a1) (lfa_optimiser a1))) = Ret (DeOk a2) /\
    lfa_basis a1 = as_basis (sv_basis a) /\
    s_run LibOptimiser h2 (running a2) = s_run LibOptimiser (h1 ++ h2) (running a).
Proof.
  intros F H X sh t a h1 h2 a1 T V P E.
  assert (B : lfa_basis a1 = as_basis (sv_basis a)).
  { assert (Q : forall h (x y : ScalarLFA F (list F) (lib_opt F)), s_run LibOptimiser h x = Ret y -> lfa_basis y = lfa_basis x).
    { induction h as [|c h IH]; intros x y Q; [injection Q as <-; reflexivity|]. unfold s_run in Q. cbn [ofold] in Q.
      destruct (s_do LibOptimiser x c) as [z|] eqn:D; [|discriminate]. rewrite (IH z y Q). clear - D. destruct c; cbn [s_do] in D.
      - destruct (s_evaluate x x0); [|discriminate]. injection D as <-. reflexivity.
      - unfold s_update in D. destruct (b_project (lfa_basis x) x0) as [[phi|r]|]; cbn [obind] in D; [|injection D as <-; reflexivity|discriminate].
        destruct (o_step_scaled _ _ _ phi e) as [[[s w] r]|]; [|discriminate]. injection D as <-. reflexivity.
      - unfold s_update_with in D. destruct (b_project (lfa_basis x) x0) as [[phi|r]|]; cbn [obind] in D; [|injection D as <-; reflexivity|discriminate].
        destruct (dot phi _) as [v|]; cbn [obind] in D; [|discriminate].
        destruct (o_step_scaled _ _ _ phi _) as [[[s w] r]|]; [|discriminate]. injection D as <-. reflexivity. }
    rewrite (Q _ _ _ E). reflexivity. }
  exists (MkSaved (sv_basis a) (lfa_weights a1) (lfa_optimiser a1)). splits; [|exact B|].
  - exact (C78_scalar F X sh t (MkSaved (sv_basis a) (lfa_weights a1) (lfa_optimiser a1)) T V P).
  - unfold s_run in *. rewrite ofold_app, E. cbn [obind]. f_equal. unfold running. cbn [sv_basis sv_weights sv_optimiser].
    rewrite <- B. destruct a1. reflexivity.
Qed.
Print Assumptions C78_resume.

(** A Chebyshev basis with the constant feature added: the approximator loads
    without error, and then every evaluation panics. *)
Theorem C78_zeroth_refuted : forall F `{Scalar F} X sh order (limits : list (F * F)) ps w (o : lib_opt F) x,
  chebyshev_new order limits = Ret (BChebyshev order limits ps) ->
  let a := MkSaved (BChebyshev order limits (chebyshev_with_zeroth limits ps)) w o in
  length w = dim (sv_basis a) -> length x = length limits ->
  (exists y, s_evaluate (running a) x = Ret (Ok y)) /\
  exists c, de_scalar X TChebyshev (type_of_opt o) (ser_scalar X sh a) = Ret (DeOk c) /\
    s_evaluate (running c) x = Panic.
Proof.
  intros F H X sh order limits ps w o x E a L Lx.
  assert (L11 : order <= 11).
  { destruct (Nat.le_gt_cases order 11) as [Q|Q]; auto. apply (chebyshev_new_panic order limits) in Q. congruence. }
  cbn [a sv_basis dim] in L. split.
  - unfold s_evaluate, running. cbn [lfa_basis as_basis b_project a sv_basis project obind rmap lfa_weights sv_weights dot].
    unfold dot1. rewrite map_length, L, Nat.eqb_refl. simpl. eauto.
  - exists (MkSaved (BChebyshev order limits ps) w o). split.
    + unfold de_scalar, ser_scalar. apply (de_lfa_ser ser_array1 de_array1 X sh TChebyshev a).
      * cbn [a sv_basis de_basis ser_basis]. exact (de_chebyshev_ser sh _ _ _ E).
      * apply de_array1_ser.
    + unfold s_evaluate, running. cbn [lfa_basis as_basis b_project sv_basis project obind rmap lfa_weights sv_weights dot].
      unfold dot1. rewrite map_length. unfold chebyshev_with_zeroth in L. rewrite app_length in L. simpl in L.
      rewrite (proj2 (Nat.eqb_neq _ _)) by lia. reflexivity.
Qed.
Print Assumptions C78_zeroth_refuted.

(** The hash builder of a tile coder is not optional: the attribute that would
    make it so is conditional on a feature the crate does not have. *)
Theorem C78_hasher_refuted : forall F `{Scalar F} X bld n m,
  de_basis X (TTile bld) (VMap [(KName "n_tilings", VNat n); (KName "memory_size", VNat m)]) =
    Ret (DeErr (MissingField "hasher_builder")) /\
  (forall h v, x_de_hasher X v = Ret (DeOk h) ->
     de_basis X (TTile bld) (VMap [(KName "n_tilings", VNat n); (KName "memory_size", VNat m); (KName "hasher_builder", v)]) =
       Ret (DeOk (BTile bld h n m))).
Proof.
  intros F H X bld n m. split; [reflexivity|]. intros h v E. cbn [de_basis]. unfold de_struct, de_struct_map.
  cbn. rewrite E. reflexivity.
Qed.
Print Assumptions C78_hasher_refuted.

(** ** C79 *)

(** [holds m name i d x] (DeriveFacts.v): exactly one entry of the map [m] has
    the key [name], or the number [i], and its value is read by [d] as [x].
    A struct is loaded from a map exactly when every field is held. *)
Theorem C79_struct : forall F `{Scalar F} (m : list (wire_key * value F)),
  (forall s, de_momentum (VMap m) = Ret (DeOk s) <->
     holds m "momentum" 0 de_f64 (mo_momentum s) /\ holds m "learning_rate" 1 de_f64 (mo_lr s) /\
     holds m "velocity" 2 de_array1 (mo_velocity s)) /\
  (forall s, de_adagrad (VMap m) = Ret (DeOk s) <->
     holds m "learning_rate" 0 de_f64 (ag_lr s) /\ holds m "accumulator" 1 de_array1 (ag_acc s)) /\
  (forall s, de_adam (VMap m) = Ret (DeOk s) <->
     holds m "beta1" 0 de_f64 (ad_beta1 s) /\ holds m "beta1_prod" 1 de_f64 (ad_beta1_prod s) /\
     holds m "beta2" 2 de_f64 (ad_beta2 s) /\ holds m "beta2_prod" 3 de_f64 (ad_beta2_prod s) /\
     holds m "learning_rate" 4 de_f64 (ad_lr s) /\ holds m "exp_avg" 5 de_array1 (ad_exp_avg s) /\
     holds m "exp_avg_sq" 6 de_array1 (ad_exp_avg_sq s)) /\
  (forall s, de_adamax (VMap m) = Ret (DeOk s) <->
     holds m "beta1" 0 de_f64 (am_beta1 s) /\ holds m "beta1_prod" 1 de_f64 (am_beta1_prod s) /\
     holds m "beta2" 2 de_f64 (am_beta2 s) /\ holds m "learning_rate" 3 de_f64 (am_lr s) /\
     holds m "exp_avg" 4 de_array1 (am_exp_avg s) /\ holds m "exp_inf" 5 de_array1 (am_exp_inf s)) /\
  (forall a, de_sparse (VMap m) = Ret (DeOk a) <->
     holds m "dim" 0 de_usize (sa_dim a) /\ holds m "activations" 1 de_hmap (sa_acts a)) /\
  (forall kind k, de_stationary kind (VMap m) = Ret (DeOk k) <->
     k_kind k = kind /\ holds m "variance" 0 de_f64 (k_variance k) /\
     holds m "lengthscales" 1 (de_vec de_f64) (k_lengthscales k)) /\
  (forall k, de_rational (VMap m) = Ret (DeOk k) <->
     exists p, k_kind k = KRationalQuadratic p /\ holds m "variance" 0 de_f64 (k_variance k) /\
     holds m "lengthscales" 1 (de_vec de_f64) (k_lengthscales k) /\ holds m "power" 2 de_f64 p) /\
  (forall e, de_err (VMap m) = Ret (DeOk e) <->
     holds m "kind" 0 de_kind (err_kind e) /\ holds m "message" 1 de_string (err_message e)) /\
  (forall t p, de_proto t (VMap m) = Ret (DeOk p) <->
     holds m "centroid" 0 (de_vec de_f64) (p_centroid p) /\ holds m "kernel" 1 (de_kernel t) (p_kernel p)) /\
  (forall W (d : dec F W) X t o a, de_lfa d X t o (VMap m) = Ret (DeOk a) <->
     holds m "basis" 0 (de_basis X t) (sv_basis a) /\ holds m "weights" 1 d (sv_weights a) /\
     holds m "optimiser" 2 (de_opt o) (sv_optimiser a)).
Proof.
  intros F H m.
  assert (ND : forall l : list string, (if list_eq_dec string_dec (nodup string_dec l) l then true else false) = true -> NoDup l).
  { intros l. destruct (list_eq_dec string_dec (nodup string_dec l) l) as [E|]; [|discriminate]. intros _.
    rewrite <- E. apply NoDup_nodup. }
  splits; intros; unfold de_momentum, de_adagrad, de_adam, de_adamax, de_sparse, de_stationary, de_rational, de_err, de_proto, de_lfa;
    (rewrite de_struct_map_iff; [|apply ND; reflexivity]); cbn [holds_all fd_name fd_de fd_type fst snd full]; split.
  1: { intros ([a [b [c u]]] & Q & ->). cbn in *. tauto. }
  1: { intros Q. destruct s as [a b c]. exists (a, (b, (c, tt))). cbn in *. tauto. }
  1: { intros ([a [b u]] & Q & ->). cbn in *. tauto. }
  1: { intros Q. destruct s as [a b]. exists (a, (b, tt)). cbn in *. tauto. }
  1: { intros ([a [b [c [d [e [f [g u]]]]]]] & Q & ->). cbn in *. tauto. }
  1: { intros Q. destruct s as [a b c d e f g]. exists (a, (b, (c, (d, (e, (f, (g, tt))))))). cbn in *. tauto. }
  1: { intros ([a [b [c [d [e [f u]]]]]] & Q & ->). cbn in *. tauto. }
  1: { intros Q. destruct s as [a b c d e f]. exists (a, (b, (c, (d, (e, (f, tt)))))). cbn in *. tauto. }
  1: { intros ([x [b u]] & Q & ->). cbn in *. tauto. }
  1: { intros Q. destruct a as [x b]. exists (x, (b, tt)). cbn in *. tauto. }
  1: { intros ([a [b u]] & Q & ->). cbn in *. tauto. }
  1: { intros [E Q]. destruct k as [ki a b]. exists (a, (b, tt)). cbn in *. subst ki. tauto. }
  1: { intros ([a [b [c u]]] & Q & ->). exists c. cbn in *. tauto. }
  1: { intros (p & E & Q). destruct k as [ki a b]. exists (a, (b, (p, tt))). cbn in *. subst ki. tauto. }
  1: { intros ([a [b u]] & Q & ->). cbn in *. tauto. }
  1: { intros Q. destruct e as [a b]. exists (a, (b, tt)). cbn in *. tauto. }
  1: { intros ([a [b u]] & Q & ->). cbn in *. tauto. }
  1: { intros Q. destruct p as [a b]. exists (a, (b, tt)). cbn in *. tauto. }
  1: { intros ([x [b [c u]]] & Q & ->). cbn in *. tauto. }
  1: { intros Q. destruct a as [x b c]. exists (x, (b, (c, tt))). cbn in *. tauto. }
Qed.
Print Assumptions C79_struct.

(** So are the bases that have fields; nothing relates one field to another. *)
Theorem C79_basis : forall F `{Scalar F} X (m : list (wire_key * value F)) b,
  (de_basis X TFourier (VMap m) = Ret (DeOk b) <-> exists order limits cs, b = BFourier order limits cs /\
     holds m "order" 0 de_byte order /\ holds m "limits" 1 (de_vec (de_pair de_f64 de_f64)) limits /\
     holds m "coefficients" 2 (de_vec (de_vec de_f64)) cs) /\
  (de_basis X TPolynomial (VMap m) = Ret (DeOk b) <-> exists order es, b = BPolynomial order es /\
     holds m "order" 0 de_byte order /\ holds m "exponents" 1 (de_vec (de_vec de_byte)) es) /\
  (forall t, de_basis X (TKernel t) (VMap m) = Ret (DeOk b) <-> exists ps, b = BKernel ps /\
     holds m "prototypes" 0 (de_vec (de_proto t)) ps) /\
  (forall bld, de_basis X (TTile bld) (VMap m) = Ret (DeOk b) <-> exists h n k, b = BTile bld h n k /\
     holds m "hasher_builder" 0 (x_de_hasher X) h /\ holds m "n_tilings" 1 de_usize n /\ holds m "memory_size" 2 de_usize k) /\
  (de_basis X TGrid (VMap m) = Ret (DeOk b) <-> exists n space, b = BGrid n space /\
     holds m "n_features" 0 de_usize n /\ holds m "feature_space" 1 (de_vec (x_de_equi X)) space) /\
  (de_basis X TClosure (VMap m) = Ret (DeOk b) <-> exists n f, b = BClosure n f /\
     holds m "n_features" 0 de_usize n /\ holds m "mapping" 1 (x_de_map X) f) /\
  (forall t1 t2, de_basis X (TStack t1 t2) (VMap m) = Ret (DeOk b) <-> exists b1 b2, b = BStack b1 b2 /\
     holds m "b1" 0 (de_basis X t1) b1 /\ holds m "b2" 1 (de_basis X t2) b2).
Proof.
  intros F H X m b.
  assert (ND : forall l : list string, (if list_eq_dec string_dec (nodup string_dec l) l then true else false) = true -> NoDup l).
  { intros l. destruct (list_eq_dec string_dec (nodup string_dec l) l) as [E|]; [|discriminate]. intros _.
    rewrite <- E. apply NoDup_nodup. }
  splits; intros; cbn [de_basis];
    (rewrite de_struct_map_iff; [|apply ND; reflexivity]); cbn [holds_all fd_name fd_de fd_type fst snd full]; split.
  1: { intros ([x [y [z u]]] & Q & ->). exists x, y, z. cbn in *. tauto. }
  1: { intros (x & y & z & -> & Q). exists (x, (y, (z, tt))). cbn in *. tauto. }
  1: { intros ([x [y u]] & Q & ->). exists x, y. cbn in *. tauto. }
  1: { intros (x & y & -> & Q). exists (x, (y, tt)). cbn in *. tauto. }
  1: { intros ([x u] & Q & ->). exists x. cbn in *. tauto. }
  1: { intros (x & -> & Q). exists (x, tt). cbn in *. tauto. }
  1: { intros ([x [y [z u]]] & Q & ->). exists x, y, z. cbn in *. tauto. }
  1: { intros (x & y & z & -> & Q). exists (x, (y, (z, tt))). cbn in *. tauto. }
  1: { intros ([x [y u]] & Q & ->). exists x, y. cbn in *. tauto. }
  1: { intros (x & y & -> & Q). exists (x, (y, tt)). cbn in *. tauto. }
  1: { intros ([x [y u]] & Q & ->). exists x, y. cbn in *. tauto. }
  1: { intros (x & y & -> & Q). exists (x, (y, tt)). cbn in *. tauto. }
  1: { intros ([x [y u]] & Q & ->). exists x, y. cbn in *. tauto. }
  1: { intros (x & y & -> & Q). exists (x, (y, tt)). cbn in *. tauto. }
Qed.
Print Assumptions C79_basis.

(** For any list of fields: entries in any order give the same value, and an
    entry under a key of no field changes nothing, not even an error. *)
Theorem C79_order : forall F `{Scalar F} A fs (mk : full fs -> A) (m m' : list (wire_key * value F)) a,
  NoDup (map fd_name fs) -> Permutation m m' ->
  de_struct fs mk (VMap m) = Ret (DeOk a) -> de_struct fs mk (VMap m') = Ret (DeOk a).
Proof.
  intros F H A fs mk m m' a ND P E. rewrite de_struct_map_iff in * by auto. destruct E as (x & Q & ->).
  exists x. split; auto. eapply holds_all_perm; eauto.
Qed.
Print Assumptions C79_order.

Theorem C79_unknown : forall F `{Scalar F} A fs (mk : full fs -> A) (m1 m2 : list (wire_key * value F)) k v,
  match k with KName s => ~ In s (map fd_name fs) | KPos n => length fs <= n end ->
  de_struct fs mk (VMap (m1 ++ (k, v) :: m2)) = de_struct fs mk (VMap (m1 ++ m2)).
Proof. intros F H A fs mk m1 m2 k v N. now apply de_struct_stranger. Qed.
Print Assumptions C79_unknown.

(** Which error: with at most one readable entry per field, the first field
    without one is missing; after such entries, a second one for a field is a
    duplicate, whatever its value and whatever follows. *)
Theorem C79_errors : forall F `{Scalar F} A fs (mk : full fs -> A) (m : list (wire_key * value F)) s name,
  NoDup (map fd_name fs) -> partly 0 fs m s ->
  (first_missing fs s = Some name -> de_struct fs mk (VMap m) = Ret (DeErr (MissingField name))) /\
  (forall k v rest, has_slot 0 fs k name s ->
     de_struct fs mk (VMap (m ++ (k, v) :: rest)) = Ret (DeErr (DuplicateField name))).
Proof.
  intros F H A fs mk m s name ND P. split; intros.
  - now apply (de_struct_missing fs mk m s).
  - now apply (de_struct_twice fs mk m s).
Qed.
Print Assumptions C79_errors.

(** The values: integers count as floats, a u8 has a range, lists and pairs are
    read element by element, and of several entries of a hash map under one key
    the last stays. *)
Theorem C79_values : forall F `{Scalar F} (v : value F),
  (forall x, de_f64 v = Ret (DeOk x) <-> v = VFloat x \/ exists n, v = VNat n /\ x = fofnat n) /\
  (forall n, de_usize v = Ret (DeOk n) <-> v = VNat n) /\
  (forall n, de_byte v = Ret (DeOk n) <-> v = VNat n /\ n <= 255) /\
  (forall s, de_string v = Ret (DeOk s) <-> v = VStr s) /\
  (forall T (d : dec F T) xs, de_vec d v = Ret (DeOk xs) <->
     exists l, v = VSeq l /\ Forall2 (fun u x => d u = Ret (DeOk x)) l xs) /\
  (forall A B (da : dec F A) (db : dec F B) x y, de_pair da db v = Ret (DeOk (x, y)) <->
     exists a b more, v = VSeq (a :: b :: more) /\ da a = Ret (DeOk x) /\ db b = Ret (DeOk y)) /\
  (forall a, de_hmap v = Ret (DeOk a) -> exists m es, v = VMap m /\
     Forall2 (fun kv ix => fst kv = KPos (fst ix) /\ de_f64 (snd kv) = Ret (DeOk (snd ix))) m es /\
     forall j, hm_get a j = option_map snd (find (fun ix => fst ix =? j) (rev es))) /\
  (forall l, de_hset v = Ret (DeOk l) -> exists us ns, v = VSeq us /\ us = map VNat ns /\ forall i, In i l <-> In i ns).
Proof.
  intros F H v. refine (conj _ (conj _ (conj _ (conj _ (conj _ (conj _ (conj _ _))))))).
  - intros x. destruct v; cbn; unfold dret, dfail; split; try discriminate; intros E;
      try (destruct E as [E|(? & E & E')]; congruence); inversion E; subst; eauto.
  - intros n. destruct v; cbn; unfold dret, dfail; split; try discriminate; congruence.
  - intros n. destruct v; cbn; unfold dret, dfail; try (split; [discriminate|intros [E _]; discriminate]).
    destruct (Nat.leb_spec n0 255) as [L|L]; split.
    + intros E. injection E as <-. auto.
    + intros [E _]. congruence.
    + discriminate.
    + intros [E L']. injection E as ->. lia.
  - intros s. destruct v; cbn; unfold dret, dfail; split; try discriminate; congruence.
  - intros T d xs. split.
    + destruct v; try discriminate. cbn [de_vec]. intros E. apply de_list_ok in E. eauto.
    + intros (l & -> & E). cbn [de_vec]. now apply de_list_ok.
  - intros. apply de_pair_ok.
  - intros a E. destruct v as [| | | | |m|]; try discriminate. cbn [de_hmap] in E. apply de_entries_get in E.
    destruct E as (es & Q & ->). exists m, es. splits; auto. intros j. rewrite fold_insert_get. destruct (find _ (rev es)); reflexivity.
  - intros l E. unfold de_hset in E. apply dbind_ok in E. destruct E as (ns & E & Q). injection Q as <-.
    destruct v as [| | | |us| |]; try discriminate. cbn [de_vec] in E. apply de_list_ok in E. exists us, ns. splits; auto.
    + clear -E. induction E as [|u n us ns D _ IH]; [reflexivity|]. simpl. f_equal; auto. destruct u; try discriminate.
      unfold de_usize, dret in D. congruence.
    + intros i. rewrite set_collect_in. simpl. tauto.
Qed.
Print Assumptions C79_values.

(** The variants of the two enums, by name or by number. *)
Theorem C79_variants : forall F `{Scalar F} (v : value F),
  (forall f, de_features v = Ret (DeOk f) <-> exists k p, v = VVariant k p /\
     (((k = KName "Dense" \/ k = KPos 0) /\ exists l, f = Dense l /\ de_array1 p = Ret (DeOk l)) \/
      ((k = KName "Sparse" \/ k = KPos 1) /\ exists a, f = Sparse a /\ de_sparse p = Ret (DeOk a)))) /\
  (forall e, de_kind v = Ret (DeOk e) <-> exists k, v = VVariant k VUnit /\
     ((e = KBasis /\ (k = KName "Basis" \/ k = KPos 0)) \/ (e = KEvaluation /\ (k = KName "Evaluation" \/ k = KPos 1)) \/
      (e = KOptimisation /\ (k = KName "Optimisation" \/ k = KPos 2)))).
Proof.
  intros F H v.
  assert (N : forall k n i, names k n i = true <-> k = KName n \/ k = KPos i).
  { intros [s|p] n i; cbn [names].
    - rewrite String.eqb_eq. split; [intros ->; auto|intros [E|E]; congruence].
    - rewrite Nat.eqb_eq. split; [intros ->; auto|intros [E|E]; congruence]. }
  split.
  - intros f. split.
    + destruct v as [| | | | | |k p]; try discriminate. cbn [de_features]. intros E. exists k, p. split; [reflexivity|].
      destruct (names k "Dense" 0) eqn:E0.
      * left. split; [now apply N|]. apply dbind_ok in E. destruct E as (l & D & Q). injection Q as <-. eauto.
      * destruct (names k "Sparse" 1) eqn:E1; [|discriminate]. right. split; [now apply N|].
        apply dbind_ok in E. destruct E as (l & D & Q). injection Q as <-. eauto.
    + intros (k & p & -> & [([->| ->] & l & -> & D)|([->| ->] & l & -> & D)]); cbn -[de_array1 de_sparse]; rewrite D; reflexivity.
  - intros e. split.
    + destruct v as [| | | | | |k p]; try discriminate. unfold de_kind, de_unit_variant. intros E. exists k.
      destruct (names k "Basis" 0) eqn:E0; [|destruct (names k "Evaluation" 1) eqn:E1; [|destruct (names k "Optimisation" 2) eqn:E2; [|discriminate]]];
        destruct p; try discriminate; injection E as <-; (split; [reflexivity|]).
      * left. split; [reflexivity|now apply N].
      * right. left. split; [reflexivity|now apply N].
      * right. right. split; [reflexivity|now apply N].
    + intros (k & -> & [(-> & [->| ->])|[(-> & [->| ->])|(-> & [->| ->])]]); reflexivity.
Qed.
Print Assumptions C79_variants.

(** An array needs version 1 and a size that fits its data, so the rows of a
    loaded matrix have one length; a loaded map or set repeats no key. *)
Theorem C79_arrays : forall F `{Scalar F},
  (forall m (l : list F), de_array1 (VMap m) = Ret (DeOk l) ->
     In (KName "v", VNat 1) m /\ (exists more, In (KName "dim", VSeq (VNat (length l) :: more)) m) /\
     exists x, In (KName "data", x) m /\ de_vec de_f64 x = Ret (DeOk l)) /\
  (forall vs (l : list F), de_array1 (VSeq vs) = Ret (DeOk l) <->
     exists d x more, vs = VNat 1 :: VSeq (VNat (length l) :: d) :: x :: more /\ de_vec de_f64 x = Ret (DeOk l)) /\
  (forall v (m : matrix F), de_array2 v = Ret (DeOk m) -> Forall (fun row => length row = mcols m) (mrows m)) /\
  (forall v (a : hmap F), de_hmap v = Ret (DeOk a) -> NoDup (map fst a)) /\
  (forall v l, @de_hset F v = Ret (DeOk l) -> NoDup l).
Proof.
  intros F H. splits; [exact de_array1_map|exact de_array1_seq|exact de_array2_ok|exact de_hmap_ok|exact de_hset_nodup].
Qed.
Print Assumptions C79_arrays.

(** The errors of arrays: a size that does not fit, and a wrong version. *)
Theorem C79_array_errors : forall F `{Scalar F} v d dim x (l : list F) more, de_vec de_f64 x = Ret (DeOk l) -> v <= 255 ->
  (length l <> d -> de_array1 (VSeq (VNat 1 :: VSeq (VNat d :: dim) :: x :: more)) =
     Ret (DeErr (Custom "data and dimension must match in size"))) /\
  (forall c, length l <> d * c -> de_array2 (VSeq (VNat 1 :: VSeq (VNat d :: VNat c :: dim) :: x :: more)) =
     Ret (DeErr (Custom "data and dimension must match in size"))) /\
  (v <> 1 -> forall vs, @de_array1 F _ (VSeq (VNat v :: vs)) = Ret (DeErr (Custom "unknown array version")) /\
     @de_array2 F _ (VSeq (VNat v :: vs)) = Ret (DeErr (Custom "unknown array version"))).
Proof.
  intros F H v d dim x l more E L. splits.
  - intros N. cbn -[de_vec]. rewrite E. cbn -[de_vec]. unfold shape1. destruct (Nat.eqb_spec (length l) d); [contradiction|reflexivity].
  - intros c N. cbn -[de_vec Nat.mul]. rewrite E. cbn -[de_vec Nat.mul]. unfold shape2. cbn [fst snd].
    destruct (Nat.eqb_spec (length l) (d * c)); [contradiction|reflexivity].
  - intros N vs. assert (V : @de_version F (VNat v) = Ret (DeErr (Custom "unknown array version"))).
    { unfold de_version, de_byte. destruct (Nat.leb_spec v 255); [|lia]. cbn. destruct (Nat.eqb_spec v 1); [contradiction|reflexivity]. }
    split; unfold de_array1, de_array2, de_array; rewrite V; reflexivity.
Qed.
Print Assumptions C79_array_errors.

(** A sequence that ends early is refused with the number of elements it had,
    as soon as those it had were readable. *)
Fixpoint readable {F} (fs : list (@field_de F)) (l : list (value F)) : Prop :=
  match fs, l with
  | f :: fs', v :: l' => (exists x, fd_de f v = Ret (DeOk x)) /\ readable fs' l'
  | _, _ => True
  end.

Theorem C79_short : forall F `{Scalar F},
  (forall A fs (mk : full fs -> A) (l : list (value F)), length l < length fs -> readable fs l ->
     de_struct fs mk (VSeq l) = Ret (DeErr (InvalidLength (length l)))) /\
  (forall A B (da : dec F A) (db : dec F B) a x, da a = Ret (DeOk x) ->
     de_pair da db (VSeq []) = Ret (DeErr (InvalidLength 0)) /\
     de_pair da db (VSeq [a]) = Ret (DeErr (InvalidLength 1))) /\
  (forall n : nat, de_array1 (VSeq []) = Ret (DeErr (InvalidLength 0)) /\
     de_array1 (VSeq [VNat 1]) = Ret (DeErr (InvalidLength 1)) /\
     de_array1 (VSeq [VNat 1; VSeq []]) = Ret (DeErr (InvalidLength 0)) /\
     de_array1 (VSeq [VNat 1; VSeq [VNat n]]) = Ret (DeErr (InvalidLength 2))) /\
  (forall n m : nat, de_array2 (VSeq []) = Ret (DeErr (InvalidLength 0)) /\
     de_array2 (VSeq [VNat 1]) = Ret (DeErr (InvalidLength 1)) /\
     de_array2 (VSeq [VNat 1; VSeq [VNat n; VNat m]]) = Ret (DeErr (InvalidLength 2))).
Proof.
  intros F SF. splits; try reflexivity.
  - intros A fs mk l L R. cbn [de_struct].
    enough (E : forall i, de_struct_seq i fs l = Ret (DeErr (InvalidLength (i + length l)))) by (rewrite (E 0); reflexivity).
    clear mk. revert l L R. induction fs as [|f fs IH]; intros [|v l] L R i; cbn [length] in *; try lia.
    + cbn [de_struct_seq]. rewrite Nat.add_0_r. reflexivity.
    + destruct R as [(x & E) R]. cbn [de_struct_seq]. rewrite E. cbn [dbind]. rewrite (IH l); auto; [|lia].
      cbn [dbind]. do 3 f_equal. lia.
  - intros A B da db a x E. split; [reflexivity|]. cbn [de_pair]. rewrite E. reflexivity.
  - intros n. splits; reflexivity.
  - intros n m. splits; reflexivity.
Qed.
Print Assumptions C79_short.

(** Loading panics only inside a Chebyshev basis (C52 says when). *)
Theorem C79_total : forall F `{Scalar F} (v : value F),
  (forall t, de_opt t v <> Panic) /\ de_features v <> Panic /\ de_err v <> Panic /\ (forall t, de_kernel t v <> Panic) /\
  forall X t o, (forall w, x_de_hasher X w <> Panic) -> (forall w, x_de_equi X w <> Panic) ->
    (forall w, x_de_map X w <> Panic) -> no_chebyshev t ->
    de_scalar X t o v <> Panic /\ de_vector X t o v <> Panic.
Proof.
  intros F H v. splits.
  - intros. apply de_opt_total.
  - apply de_features_total.
  - apply de_err_total.
  - intros. apply de_kernel_total.
  - intros X t o Xh Xe Xm N. split; apply de_struct_total;
      repeat (apply Forall_cons; [cbn [fd_de fd_type]; intros w|]); try apply Forall_nil;
      auto using de_opt_total, de_array1_total, de_array2_total, de_basis_total.
Qed.
Print Assumptions C79_total.

(** Nothing checks an index against the dimension: such features load, and
    their product with any weights of that dimension panics. *)
Theorem C79_features_refuted : forall F `{Scalar F} n i x, n <= i ->
  exists phi, de_features (VVariant (KName "Sparse") (VMap [(KName "dim", VNat n); (KName "activations", VMap [(KPos i, VFloat x)])])) =
    Ret (DeOk phi) /\ ~ wf phi /\ forall w, length w = n -> dot phi w = Panic.
Proof.
  intros F H n i x L. exists (Sparse (MkSparse n [(i, x)])). split; [reflexivity|]. split.
  - intros [_ B]. assert (i < n); [|lia]. apply (B i). exists x. left. reflexivity.
  - intros w Lw. cbn [dot]. unfold dot_sparse. cbn [sa_acts ofold fst]. unfold vget.
    rewrite (proj2 (nth_error_None w i)) by lia. reflexivity.
Qed.
Print Assumptions C79_features_refuted.

(** Nothing relates the two moments of Adam: an optimiser that no constructor
    returns loads, and its first dense update panics. *)
Theorem C79_optimiser_refuted : forall F `{Scalar F} (b1 p1 b2 p2 lr : F) m s w da e,
  length m = length w -> length da = length w -> length s < length w ->
  exists v o, de_opt TAdam v = Ret (DeOk o) /\ o = LAdam (MkAdam b1 p1 b2 p2 lr m s) /\
    (forall n lr' c1 c2, o <> LAdam (adam_new n lr' c1 c2)) /\
    o_step_scaled LibOptimiser o w (Dense da) e = Panic.
Proof.
  intros F H b1 p1 b2 p2 lr m s w da e Lm Ld Ls.
  exists (ser_opt AsMap (LAdam (MkAdam b1 p1 b2 p2 lr m s))), (LAdam (MkAdam b1 p1 b2 p2 lr m s)). splits.
  - exact (de_opt_ser AsMap (LAdam (MkAdam b1 p1 b2 p2 lr m s))).
  - reflexivity.
  - intros n lr' c1 c2 E. unfold adam_new in E. injection E as _ _ _ _ _ E1 E2.
    assert (length m = length s) by (rewrite E1, E2; reflexivity). lia.
  - cbn [o_step_scaled LibOptimiser lib_step_scaled Adam]. unfold adam_step_scaled.
    cbn [ad_lr ad_beta1 ad_beta2 ad_exp_avg ad_exp_avg_sq ad_beta1_prod ad_beta2_prod].
    rewrite adam_loop_panics; [reflexivity|]. apply OptimMisfit.indexed_reach. lia.
Qed.
Print Assumptions C79_optimiser_refuted.

(** Non-vacuity: hash builders, equipartitions and closures that survive; a
    stack of all kinds of bases saved and loaded; entries in another order,
    with one by number and one of no field. *)
Definition id_hasher : hasher := MkHasher N 7%N (fun s z => (s * 31 + Z.to_N (z + 100)) mod 1009)%N (fun s => s).
Definition X0 : externals R :=
  MkExternals (fun _ => VUnit) (fun _ => dret id_hasher) (fun _ => VNat 1) (fun _ => dret (MkEqui 2 (fun _ => 1) 1%R [0%R; 1%R]))
    (fun _ => VUnit) (fun _ => dret (fun x => Ret (Ok (Dense x)))).
Example C78_case :
  let e := MkEqui 2 (fun _ => 1) 1%R [0%R; 1%R] in
  let t := TStack (TStack (TL2 TFourier) (TTile Checked)) (TStack TGrid (TStack TClosure (TKernel TRationalQuadratic))) in
  exists b, b = BStack (BStack (BL2 (fourier_new 1 [(0%R, 1%R)])) (BTile Checked id_hasher 2 8))
      (BStack (BGrid 2 [e]) (BStack (BClosure 1 (fun x => Ret (Ok (Dense x))))
        (BKernel [MkProto [1%R] (MkKernel (KRationalQuadratic 2%R) 1%R [1%R])]))) /\
    has_type t b /\ savable X0 b /\ plain b /\
    de_basis X0 t (ser_basis X0 AsMap b) = Ret (DeOk b) /\ de_basis X0 t (ser_basis X0 AsSeq b) = Ret (DeOk b).
Proof.
  intros e t. eexists. split; [reflexivity|].
  assert (T : has_type t (BStack (BStack (BL2 (fourier_new 1 [(0%R, 1%R)])) (BTile Checked id_hasher 2 8))
      (BStack (BGrid 2 [e]) (BStack (BClosure 1 (fun x => Ret (Ok (Dense x))))
        (BKernel [MkProto [1%R] (MkKernel (KRationalQuadratic 2%R) 1%R [1%R])]))))).
  { cbn. splits; auto. }
  match type of T with has_type _ ?b => assert (V : savable X0 b); [|assert (P : plain b)] end.
  { cbn. splits; auto; [lia|]. intros e' [<-|[]]. reflexivity. }
  { cbn. tauto. }
  splits; auto; apply de_basis_plain; auto.
Qed.

Example C79_case : let m : list (wire_key * value R) :=
    [(KName "velocity", VMap [(KName "dim", VSeq [VNat 1]); (KName "data", VSeq [VNat 0]); (KName "v", VNat 1)]);
     (KName "comment", VStr "x"); (KPos 1, VFloat 3%R); (KName "momentum", VFloat 2%R)] in
  de_momentum (VMap m) = Ret (DeOk (MkMomentum 2%R 3%R [0%R])) /\
  de_momentum (VMap (m ++ [(KName "learning_rate", VFloat 3%R)])) = Ret (DeErr (DuplicateField "learning_rate")) /\
  de_array1 (VMap [(KName "v", VNat 1); (KName "dim", VSeq [VNat 2]); (KName "data", VSeq [VFloat 0%R])]) =
    Ret (DeErr (Custom "data and dimension must match in size")).
Proof. intros m. splits; reflexivity. Qed.

(** C79_errors, C79_values and C79_variants on concrete entries: the hypotheses
    of the first are met, and each of the others reads a value. *)
Definition two_fields : list (field_de R) := [MkField "a" R de_f64; MkField "b" nat (@de_byte R)].
Example C79_errors_case : let m : list (wire_key * value R) := [(KPos 1, VNat 7); (KName "note", VUnit)] in
  NoDup (map fd_name two_fields) /\ partly 0 two_fields m (None, (Some 7, tt)) /\
  first_missing two_fields (None, (Some 7, tt)) = Some "a" /\
  has_slot 0 two_fields (KName "b") "b" (None, (Some 7, tt)) /\
  de_hmap (VMap [(KPos 4, VFloat 1%R); (KPos 2, VFloat 2%R); (KPos 4, VFloat 3%R)]) = Ret (DeOk [(4, 3%R); (2, 2%R)]) /\
  @de_hset R (VSeq [VNat 3; VNat 5; VNat 3]) = Ret (DeOk [3; 5]) /\
  de_byte (VNat 256 : value R) = Ret (DeErr InvalidType) /\
  de_kind (VVariant (KPos 2) VUnit : value R) = Ret (DeOk KOptimisation).
Proof.
  intros m. split; [|split; [|split; [|split]]].
  - repeat constructor; simpl; intuition discriminate.
  - cbn. splits; auto. unfold holds. cbn. eauto.
  - reflexivity.
  - cbn. right. split; [reflexivity|]. left. splits; congruence.
  - splits; try reflexivity.
Qed.

Example C79_short_case : readable two_fields [VFloat 1%R] /\
  de_struct two_fields (fun x => x) (VSeq [VFloat 1%R]) = Ret (DeErr (InvalidLength 1)).
Proof. split; [cbn; split; [exists 1%R; reflexivity|auto]|reflexivity]. Qed.
