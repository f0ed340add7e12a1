(** What a panicking call leaves behind.

    The main model gives a panicking call no result state. Here the functions
    that write through [&mut] are modelled again, statement by statement, with
    the state at the moment of the panic kept: /repo/src/features.rs,
    /repo/src/optim/ and /repo/src/lib.rs. A call yields the state it leaves and
    whether it returned ([true]) or unwound ([false]). *)
From Coq Require Import List Arith ZArith Bool.
From Verif Require Import Base Scalar HMap NdArray Features Optim Lfa.
Import ListNotations.

(** A [for] loop whose body may panic half way through. *)
Fixpoint uloop {A S} (f : S -> A -> S * bool) (l : list A) (s : S) : S * bool :=
  match l with
  | [] => (s, true)
  | a :: l' => let (s', ok) := f s a in if ok then uloop f l' s' else (s', false)
  end.

(** [a[i] = f(a[i])]: a failed bounds check leaves [a] alone. *)
Definition upd_u {A} (l : list A) (i : nat) (f : A -> A) : list A * bool :=
  match vupd l i f with Ret l' => (l', true) | Panic => (l, false) end.

(** ndarray checks shapes before it writes. *)
Definition zip_u {A} (f : A -> A -> A) (self rhs : list A) : list A * bool :=
  match zip_mut_with f self rhs with Ret l => (l, true) | Panic => (self, false) end.

Section Unwind.
  Context {F : Type} `{Scalar F}.
  Local Notation "x +. y" := (fadd x y) (at level 50, left associativity).
  Local Notation "x -. y" := (fsub x y) (at level 50, left associativity).
  Local Notation "x *. y" := (fmul x y) (at level 40, left associativity).
  Local Notation "x /. y" := (fdiv x y) (at level 40, left associativity).

  (** ** Writes to a weight vector *)

  (** features.rs:643-654. *)
  Definition addto_u (phi : Features F) (w : list F) : list F * bool :=
    match phi with
    | Dense da => zip_u fadd w da
    | Sparse sa => uloop (fun w kv => upd_u w (fst kv) (fun x => x +. snd kv)) (sa_acts sa) w
    end.

  (** features.rs:658-669. *)
  Definition scaled_addto_u (phi : Features F) (alpha : F) (w : list F) : list F * bool :=
    match phi with
    | Dense da => zip_u (fun y x => y +. alpha *. x) w da
    | Sparse sa =>
        uloop (fun w kv => upd_u w (fst kv) (fun x => x +. alpha *. snd kv)) (sa_acts sa) w
    end.

  (** ** Optimisers: the state, the weights, and whether the step returned *)

  (** sgd.rs:16-24. *)
  Definition sgd_u (lr : F) (w : list F) (phi : Features F) (sf : F) : F * list F * bool :=
    let (w', ok) := scaled_addto_u phi (lr *. sf) w in (lr, w', ok).

  (** isgd.rs:24-32. *)
  Definition isgd_u (lr : F) (w : list F) (phi : Features F) (sf : F) : F * list F * bool :=
    let (w', ok) := scaled_addto_u phi (isgd_compute_lr lr phi *. sf) w in (lr, w', ok).

  (** momentum.rs:39-50, nesterov.rs:39-52. *)
  Definition velocity_u (m : F) (v : list F) (phi : Features F) (sf : F) : list F * bool :=
    match phi with
    | Dense da => zip_u (fun x y => m *. x +. y *. sf) v da
    | Sparse sa =>
        uloop (fun v kv => upd_u v (fst kv) (fun x => x +. snd kv *. sf)) (sa_acts sa) (mul_assign v m)
    end.

  (** momentum.rs:29-53. *)
  Definition momentum_u (s : momentum_state F) (w : list F) (phi : Features F) (sf : F)
      : momentum_state F * list F * bool :=
    let (v, ok) := velocity_u (mo_momentum s) (mo_velocity s) phi sf in
    let s' := MkMomentum (mo_momentum s) (mo_lr s) v in
    if ok then
      let (w', ok') := zip_u (fun y x => y +. mo_lr s *. x) w v in (s', w', ok')
    else (s', w, false).

  (** nesterov.rs:30-58. *)
  Definition nag_u (s : momentum_state F) (w : list F) (phi : Features F) (sf : F)
      : momentum_state F * list F * bool :=
    let (v, ok) := velocity_u (mo_momentum s) (mo_velocity s) phi sf in
    let s' := MkMomentum (mo_momentum s) (mo_lr s) v in
    if ok then
      let (w', ok') := zip_u (fun y x => y +. mo_lr s *. x) w v in
      if ok' then
        let (w'', ok'') := scaled_addto_u phi (mo_momentum s) w' in (s', w'', ok'')
      else (s', w', false)
    else (s', w, false).

  (** adagrad.rs:48-53: [*ss] is written before [weights[i]] is checked. *)
  Fixpoint adagrad_sparse_u (lr sf : F) (m : hmap F) (i : nat) (ss : list F) (w : list F)
      : list F * list F * bool :=
    match ss with
    | [] => (w, [], true)
    | s :: ss' =>
        let g := get_or_zero m i *. sf in
        let s1 := s +. fpowi g 2 in
        let (w1, ok) := upd_u w i (fun x => x +. lr *. g /. (fsqrt s1 +. EPS)) in
        if ok then
          let '(w2, ss2, ok2) := adagrad_sparse_u lr sf m (S i) ss' w1 in (w2, s1 :: ss2, ok2)
        else (w, s1 :: ss', false)
    end.

  (** adagrad.rs:27-58. *)
  Definition adagrad_u (s : adagrad_state F) (w : list F) (phi : Features F) (sf : F)
      : adagrad_state F * list F * bool :=
    match phi with
    | Dense da => let (w', acc) := adagrad_dense (ag_lr s) sf da w (ag_acc s) in
                  (MkAdagrad (ag_lr s) acc, w', true)
    | Sparse sa => let '(w', acc, ok) := adagrad_sparse_u (ag_lr s) sf (sa_acts sa) 0 (ag_acc s) w in
                   (MkAdagrad (ag_lr s) acc, w', ok)
    end.

  (** adam.rs:62-74 and 83-95: both moments are read, then written, before
      [weights[i]] is checked. *)
  Definition adam_coord_u (decay : bool) (lr b1 b2 p1 p2 sf : F)
      (st : list F * list F * list F) (ia : nat * F) : list F * list F * list F * bool :=
    let '(m1, m2, w) := st in
    let '(i, a) := ia in
    let g := a *. sf in
    match nth_error m1 i, nth_error m2 i with
    | Some x1, Some x2 =>
        let m1_new := (if decay then b1 *. x1 else x1) +. (fone -. b1) *. g in
        let m2_new := (if decay then b2 *. x2 else x2) +. (fone -. b2) *. g *. g in
        let m1_unbiased := m1_new /. (fone -. p1) in
        let m2_unbiased := m2_new /. (fone -. p2) in
        let (m1', _) := upd_u m1 i (fun _ => m1_new) in
        let (m2', _) := upd_u m2 i (fun _ => m2_new) in
        let (w', ok) := upd_u w i (fun x => x +. lr *. m1_unbiased /. (fsqrt m2_unbiased +. EPS)) in
        (m1', m2', w', ok)
    | _, _ => (m1, m2, w, false)
    end.

  (** adam.rs:47-100. The powers of the decay rates advance first. *)
  Definition adam_u (s : adam_state F) (w : list F) (phi : Features F) (sf : F)
      : adam_state F * list F * bool :=
    let p1 := ad_beta1_prod s *. ad_beta1 s in
    let p2 := ad_beta2_prod s *. ad_beta2 s in
    let '(m1, m2, w', ok) :=
      match phi with
      | Dense da =>
          uloop (adam_coord_u true (ad_lr s) (ad_beta1 s) (ad_beta2 s) p1 p2 sf)
                (indexed da) (ad_exp_avg s, ad_exp_avg_sq s, w)
      | Sparse sa =>
          uloop (adam_coord_u false (ad_lr s) (ad_beta1 s) (ad_beta2 s) p1 p2 sf)
                (sa_acts sa)
                (mul_assign (ad_exp_avg s) (ad_beta1 s),
                 mul_assign (ad_exp_avg_sq s) (ad_beta2 s), w)
      end in
    (MkAdam (ad_beta1 s) p1 (ad_beta2 s) p2 (ad_lr s) m1 m2, w', ok).

  (** adamax.rs:59-69 and 78-88. *)
  Definition adamax_coord_u (decay : bool) (lr b1 b2 p1 sf : F)
      (st : list F * list F * list F) (ia : nat * F) : list F * list F * list F * bool :=
    let '(m, u, w) := st in
    let '(i, a) := ia in
    let g := a *. sf in
    match nth_error m i, nth_error u i with
    | Some x1, Some x2 =>
        let m_new := (if decay then b1 *. x1 else x1) +. (fone -. b1) *. g in
        let u_new := fmax (if decay then b2 *. x2 else x2) (fabs g) in
        let m_unbiased := m_new /. (fone -. p1) in
        let (m', _) := upd_u m i (fun _ => m_new) in
        let (u', _) := upd_u u i (fun _ => u_new) in
        let (w', ok) := upd_u w i (fun x => x +. lr *. m_unbiased /. (u_new +. EPS)) in
        (m', u', w', ok)
    | _, _ => (m, u, w, false)
    end.

  (** adamax.rs:45-93. *)
  Definition adamax_u (s : adamax_state F) (w : list F) (phi : Features F) (sf : F)
      : adamax_state F * list F * bool :=
    let p1 := am_beta1_prod s *. am_beta1 s in
    let '(m, u, w', ok) :=
      match phi with
      | Dense da =>
          uloop (adamax_coord_u true (am_lr s) (am_beta1 s) (am_beta2 s) p1 sf)
                (indexed da) (am_exp_avg s, am_exp_inf s, w)
      | Sparse sa =>
          uloop (adamax_coord_u false (am_lr s) (am_beta1 s) (am_beta2 s) p1 sf)
                (sa_acts sa)
                (mul_assign (am_exp_avg s) (am_beta1 s),
                 mul_assign (am_exp_inf s) (am_beta2 s), w)
      end in
    (MkAdaMax (am_beta1 s) p1 (am_beta2 s) (am_lr s) m u, w', ok).

  Definition lift_u {S} (inj : S -> lib_opt F) (r : S * list F * bool) : lib_opt F * list F * bool :=
    let '(s, w, ok) := r in (inj s, w, ok).

  Definition lib_u (o : lib_opt F) (w : list F) (phi : Features F) (sf : F) : lib_opt F * list F * bool :=
    match o with
    | LSGD s => lift_u LSGD (sgd_u s w phi sf)
    | LISGD s => lift_u LISGD (isgd_u s w phi sf)
    | LMomentum s => lift_u LMomentum (momentum_u s w phi sf)
    | LNAG s => lift_u LNAG (nag_u s w phi sf)
    | LAdagrad s => lift_u LAdagrad (adagrad_u s w phi sf)
    | LAdam s => lift_u LAdam (adam_u s w phi sf)
    | LAdaMax s => lift_u LAdaMax (adamax_u s w phi sf)
    end.

  (** ** Approximators, over the library's optimisers *)

  (** lib.rs:143-152. [None]: unwound. *)
  Definition s_update_u {I} (a : ScalarLFA F I (lib_opt F)) (input : I) (error : F)
      : ScalarLFA F I (lib_opt F) * option (result unit) :=
    match b_project (lfa_basis a) input with
    | Panic => (a, None)
    | Ret (Err e) => (a, Some (Err e))
    | Ret (Ok b) =>
        let '(s, w, ok) := lib_u (lfa_optimiser a) (lfa_weights a) b error in
        (with_state a w s, if ok then Some (Ok tt) else None)
    end.

  (** lib.rs:274-279. *)
  Fixpoint update_columns_u (b : Features F) (errors : list F) (j : nat)
      (wm : matrix F) (s : lib_opt F) : lib_opt F * matrix F * bool :=
    match errors with
    | [] => (s, wm, true)
    | e :: es =>
        if j <? ncols wm then
          match column wm j with
          | Panic => (s, wm, false)
          | Ret c =>
              let '(s', c', ok) := lib_u s c b e in
              match set_column wm j c' with
              | Panic => (s', wm, false)
              | Ret wm' => if ok then update_columns_u b es (S j) wm' s' else (s', wm', false)
              end
          end
        else (s, wm, true)
    end.

  (** lib.rs:265-281. *)
  Definition v_update_u {I} (a : VectorLFA F I (lib_opt F)) (input : I) (errors : list F)
      : VectorLFA F I (lib_opt F) * option (result unit) :=
    match b_project (lfa_basis a) input with
    | Panic => (a, None)
    | Ret (Err e) => (a, Some (Err e))
    | Ret (Ok b) =>
        let '(s, wm, ok) := update_columns_u b errors 0 (lfa_weights a) (lfa_optimiser a) in
        (with_state a wm s, if ok then Some (Ok tt) else None)
    end.

  (** ** In-place operations with closures that may panic *)

  (** The memory a [&mut Features] points to: a feature vector, or the all-zero
      bytes that [map_inplace] and [merge_inplace] put there (features.rs:379,
      544), which are not a [Features] of any kind. *)
  Inductive slot := Valid (phi : Features F) | Zeroed.

  (** features.rs:347-375. *)
  Definition fmap_into_p (phi : Features F) (f : F -> outcome F) : outcome (Features F) :=
    match phi with
    | Dense da => let* da' := omapM f da in Ret (Dense da')
    | Sparse sa =>
        let* null_activation := f fzero in
        if fltb (fabs null_activation) sparsity_tol then
          let* l := omapM (fun kv => let* v := f (snd kv) in Ret (fst kv, v)) (sa_acts sa) in
          Ret (Sparse (MkSparse (sa_dim sa) (hm_collect l)))
        else
          let* phi' := ofold (fun p kv => let* v := f (snd kv) in vset p (fst kv) v)
                             (sa_acts sa) (repeat null_activation (sa_dim sa)) in
          Ret (Dense phi')
    end.

  (** features.rs:483-535. *)
  Definition merge_into_p (self other : Features F) (f : F -> F -> outcome F) : outcome (Features F) :=
    match self, other with
    | Dense da1, Dense da2 =>
        let* r := broadcast da2 (length da1) in
        let* d := omapM (fun xy => f (fst xy) (snd xy)) (combine da1 r) in
        Ret (Dense d)
    | Dense da1, Sparse sa2 =>
        let* d := ofold (fun p kv => let* x := vget p (fst kv) in
                                     let* v := f x (snd kv) in vset p (fst kv) v) (sa_acts sa2) da1 in
        Ret (Dense d)
    | Sparse sa1, Dense da2 =>
        let* d := omapM (fun i => f (get_or_zero (sa_acts sa1) i) (nth i da2 fzero))
                        (seq 0 (Nat.max (sa_dim sa1) (length da2))) in
        Ret (Dense d)
    | Sparse sa1, Sparse sa2 =>
        let* m1 := omapM (fun kv => let* v := f (snd kv) (get_or_zero (sa_acts sa2) (fst kv)) in
                                    Ret (fst kv, v)) (sa_acts sa1) in
        let* m := ofold (fun m kv => if hm_mem m (fst kv) then Ret m
                                     else let* v := f fzero (snd kv) in Ret (hm_insert m (fst kv) v))
                        (sa_acts sa2) m1 in
        Ret (Sparse (MkSparse (Nat.max (sa_dim sa1) (sa_dim sa2)) m))
    end.

  (** features.rs:378-383 and 539-548: take the value out, leave zeroes, compute,
      put the result in. *)
  Definition inplace_u (phi : Features F) (op : Features F -> outcome (Features F)) : slot * bool :=
    let old := phi in
    let self := Zeroed in
    match op old with
    | Ret phi' => (Valid phi', true)
    | Panic => (self, false)
    end.
  Definition map_inplace_u (phi : Features F) (f : F -> outcome F) : slot * bool :=
    inplace_u phi (fun old => fmap_into_p old f).
  Definition merge_inplace_u (phi other : Features F) (f : F -> F -> outcome F) : slot * bool :=
    inplace_u phi (fun old => merge_into_p old other f).

  (** ** Uninitialised arrays *)

  (** features.rs:451-460 ([merge]) and 508-517 ([merge_into]): an array of
      uninitialised entries, filled index by index; [assume_init] is reached
      with whatever has been written ([None]: never written). *)
  Definition fill_uninit (n : nat) (entry : nat -> outcome F) : outcome (list (option F)) :=
    ofold (fun phi i => let* v := entry i in vset phi i (Some v)) (seq 0 n) (repeat None n).
  Definition assume_init (phi : list (option F)) : option (list F) :=
    fold_right (fun o r => match o, r with Some x, Some l => Some (x :: l) | _, _ => None end) (Some []) phi.

  (** features.rs:204-210, 451-460: is the read within the allocation? *)
  Definition uget_in_bounds (phi : Features F) (idx : nat) : bool :=
    match phi with Dense da => idx <? length da | Sparse _ => true end.
End Unwind.
Arguments slot : clear implicits.
