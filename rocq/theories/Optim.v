(** Optimisers: model of /repo/src/optim/. *)
From Coq Require Import List Arith ZArith.
From Verif Require Import Base Scalar HMap NdArray Features.
Import ListNotations.

(** optim/mod.rs:5-18 ([trait Optimiser]) for an implementing type [S]. A step
    returns the new optimiser state, the new weights and its [Result]; all three
    are kept even when the result is an error. Rust's [ArrayViewMut1] cannot be
    resized, which a user-supplied [step_scaled] could do here. *)
Record Optimiser (F S : Type) := MkOptimiser {
  o_step_scaled : S -> list F -> Features F -> F -> outcome (S * list F * result unit);
  o_step : S -> list F -> Features F -> outcome (S * list F * result unit);
  o_reset : S -> S
}.
Arguments MkOptimiser {F S}.
Arguments o_step_scaled {F S}.
Arguments o_step {F S}.
Arguments o_reset {F S}.

(** momentum.rs:11-16 and nesterov.rs:12-17. *)
Record momentum_state (F : Type) := MkMomentum {
  mo_momentum : F; mo_lr : F; mo_velocity : list F
}.
Arguments MkMomentum {F}.
Arguments mo_momentum {F}.
Arguments mo_lr {F}.
Arguments mo_velocity {F}.

(** adagrad.rs:12-15. *)
Record adagrad_state (F : Type) := MkAdagrad { ag_lr : F; ag_acc : list F }.
Arguments MkAdagrad {F}.
Arguments ag_lr {F}.
Arguments ag_acc {F}.

(** adam.rs:16-27. *)
Record adam_state (F : Type) := MkAdam {
  ad_beta1 : F; ad_beta1_prod : F;
  ad_beta2 : F; ad_beta2_prod : F;
  ad_lr : F;
  ad_exp_avg : list F; ad_exp_avg_sq : list F
}.
Arguments MkAdam {F}.
Arguments ad_beta1 {F}.
Arguments ad_beta1_prod {F}.
Arguments ad_beta2 {F}.
Arguments ad_beta2_prod {F}.
Arguments ad_lr {F}.
Arguments ad_exp_avg {F}.
Arguments ad_exp_avg_sq {F}.

(** adamax.rs:16-26. *)
Record adamax_state (F : Type) := MkAdaMax {
  am_beta1 : F; am_beta1_prod : F;
  am_beta2 : F;
  am_lr : F;
  am_exp_avg : list F; am_exp_inf : list F
}.
Arguments MkAdaMax {F}.
Arguments am_beta1 {F}.
Arguments am_beta1_prod {F}.
Arguments am_beta2 {F}.
Arguments am_lr {F}.
Arguments am_exp_avg {F}.
Arguments am_exp_inf {F}.

Section Optim.
  Context {F : Type} `{Scalar F}.
  Local Notation "x +. y" := (fadd x y) (at level 50, left associativity).
  Local Notation "x -. y" := (fsub x y) (at level 50, left associativity).
  Local Notation "x *. y" := (fmul x y) (at level 40, left associativity).
  Local Notation "x /. y" := (fdiv x y) (at level 40, left associativity).

  (** mod.rs:6-8 and 17: the trait's default [step] and [reset]. *)
  Definition default_step {S}
      (step_scaled : S -> list F -> Features F -> F -> outcome (S * list F * result unit))
      (s : S) (w : list F) (g : Features F) : outcome (S * list F * result unit) :=
    step_scaled s w g fone.
  Definition default_reset {S} (s : S) : S := s.

  (** [self.<field>.fill(0.0)] *)
  Definition fill_zero (l : list F) : list F := map (fun _ => fzero) l.

  (** ** SGD, sgd.rs:9; the state is the learning rate. *)

  (** sgd.rs:12-14. *)
  Definition sgd_step (lr : F) (w : list F) (phi : Features F) :=
    let* w' := scaled_addto phi lr w in Ret (lr, w', Ok tt).

  (** sgd.rs:16-24. *)
  Definition sgd_step_scaled (lr : F) (w : list F) (phi : Features F) (sf : F) :=
    let* w' := scaled_addto phi (lr *. sf) w in Ret (lr, w', Ok tt).

  Definition SGD : Optimiser F F := MkOptimiser sgd_step_scaled sgd_step default_reset.

  (** ** ISGD, isgd.rs:9. *)

  (** isgd.rs:12-16. *)
  Definition isgd_compute_lr (lr : F) (phi : Features F) : F :=
    let norm := ffold phi fzero (fun acc x => acc +. x *. x) in
    lr /. (fone +. lr *. norm).

  (** isgd.rs:20-22. *)
  Definition isgd_step (lr : F) (w : list F) (phi : Features F) :=
    let* w' := scaled_addto phi (isgd_compute_lr lr phi) w in Ret (lr, w', Ok tt).

  (** isgd.rs:24-32. *)
  Definition isgd_step_scaled (lr : F) (w : list F) (phi : Features F) (sf : F) :=
    let* w' := scaled_addto phi (isgd_compute_lr lr phi *. sf) w in Ret (lr, w', Ok tt).

  Definition ISGD : Optimiser F F := MkOptimiser isgd_step_scaled isgd_step default_reset.

  (** ** Momentum and Nesterov *)

  (** momentum.rs:19-25, nesterov.rs:20-26. *)
  Definition momentum_new (n_params : nat) (momentum lr : F) : momentum_state F :=
    MkMomentum momentum lr (zeros n_params).

  (** The velocity update, momentum.rs:39-50 and nesterov.rs:39-52. *)
  Definition velocity_update (m : F) (v : list F) (phi : Features F) (sf : F)
      : outcome (list F) :=
    match phi with
    | Dense da => zip_mut_with (fun x y => m *. x +. y *. sf) v da
    | Sparse sa =>
        ofold (fun v kv => vupd v (fst kv) (fun x => x +. snd kv *. sf))
              (sa_acts sa) (mul_assign v m)
    end.

  (** momentum.rs:29-53. *)
  Definition momentum_step_scaled (s : momentum_state F) (w : list F) (phi : Features F) (sf : F) :=
    let* v := velocity_update (mo_momentum s) (mo_velocity s) phi sf in
    let* w' := scaled_add (mo_lr s) w v in
    Ret (MkMomentum (mo_momentum s) (mo_lr s) v, w', Ok tt).

  (** nesterov.rs:30-58. *)
  Definition nag_step_scaled (s : momentum_state F) (w : list F) (phi : Features F) (sf : F) :=
    let* v := velocity_update (mo_momentum s) (mo_velocity s) phi sf in
    let* w' := scaled_add (mo_lr s) w v in
    let* w'' := scaled_addto phi (mo_momentum s) w' in
    Ret (MkMomentum (mo_momentum s) (mo_lr s) v, w'', Ok tt).

  (** momentum.rs:55, nesterov.rs:60-62. *)
  Definition momentum_reset (s : momentum_state F) : momentum_state F :=
    MkMomentum (mo_momentum s) (mo_lr s) (fill_zero (mo_velocity s)).

  Definition SGDMomentum : Optimiser F (momentum_state F) :=
    MkOptimiser momentum_step_scaled (default_step momentum_step_scaled) momentum_reset.
  Definition NAG : Optimiser F (momentum_state F) :=
    MkOptimiser nag_step_scaled (default_step nag_step_scaled) momentum_reset.

  (** ** Adagrad *)

  (** EPS = 1e-7: adagrad.rs:4, adam.rs:5, adamax.rs:5. *)
  Definition EPS : F := flit 1 10000000.

  (** adagrad.rs:18-23. *)
  Definition adagrad_new (n_params : nat) (lr : F) : adagrad_state F :=
    MkAdagrad lr (zeros n_params).

  (** adagrad.rs:37-46: the three-way zip stops at the shortest. *)
  Fixpoint adagrad_dense (lr sf : F) (da w ss : list F) : list F * list F :=
    match da, w, ss with
    | a :: da', x :: w', s :: ss' =>
        let g := a *. sf in
        let s1 := s +. fpowi g 2 in
        let x1 := x +. lr *. g /. (fsqrt s1 +. EPS) in
        let '(w2, ss2) := adagrad_dense lr sf da' w' ss' in
        (x1 :: w2, s1 :: ss2)
    | _, _, _ => (w, ss)
    end.

  (** adagrad.rs:48-53: one pass over the accumulator, from index [i] on.
      Returns the new accumulator suffix and the whole weight vector. *)
  Fixpoint adagrad_sparse (lr sf : F) (m : hmap F) (i : nat) (ss : list F) (w : list F)
      : outcome (list F * list F) :=
    match ss with
    | [] => Ret (w, [])
    | s :: ss' =>
        let g := get_or_zero m i *. sf in
        let s1 := s +. fpowi g 2 in
        let* w1 := vupd w i (fun x => x +. lr *. g /. (fsqrt s1 +. EPS)) in
        let* (w2, ss2) := adagrad_sparse lr sf m (S i) ss' w1 in
        Ret (w2, s1 :: ss2)
    end.

  (** adagrad.rs:27-58. *)
  Definition adagrad_step_scaled (s : adagrad_state F) (w : list F) (phi : Features F) (sf : F) :=
    let* (w', acc') :=
      match phi with
      | Dense da => Ret (adagrad_dense (ag_lr s) sf da w (ag_acc s))
      | Sparse sa => adagrad_sparse (ag_lr s) sf (sa_acts sa) 0 (ag_acc s) w
      end in
    Ret (MkAdagrad (ag_lr s) acc', w', Ok tt).

  (** adagrad.rs:60. *)
  Definition adagrad_reset (s : adagrad_state F) : adagrad_state F :=
    MkAdagrad (ag_lr s) (fill_zero (ag_acc s)).

  Definition Adagrad : Optimiser F (adagrad_state F) :=
    MkOptimiser adagrad_step_scaled (default_step adagrad_step_scaled) adagrad_reset.

  (** ** Adam *)

  (** adam.rs:30-43. *)
  Definition adam_new (n_params : nat) (lr beta1 beta2 : F) : adam_state F :=
    MkAdam beta1 beta1 beta2 beta2 lr (zeros n_params) (zeros n_params).

  (** One iteration of the loops adam.rs:62-74 ([decay = true]) and 83-95
      ([decay = false], the buffers having been decayed beforehand), for
      coordinate [i] with activation [a]. *)
  Definition adam_coord (decay : bool) (lr b1 b2 p1 p2 sf : F)
      (st : list F * list F * list F) (ia : nat * F) : outcome (list F * list F * list F) :=
    let '(m1, m2, w) := st in
    let '(i, a) := ia in
    let g := a *. sf in
    let* x1 := vget m1 i in
    let m1_new := (if decay then b1 *. x1 else x1) +. (fone -. b1) *. g in
    let* x2 := vget m2 i in
    let m2_new := (if decay then b2 *. x2 else x2) +. (fone -. b2) *. g *. g in
    let m1_unbiased := m1_new /. (fone -. p1) in
    let m2_unbiased := m2_new /. (fone -. p2) in
    let* m1' := vset m1 i m1_new in
    let* m2' := vset m2 i m2_new in
    let* w' := vupd w i (fun x => x +. lr *. m1_unbiased /. (fsqrt m2_unbiased +. EPS)) in
    Ret (m1', m2', w').

  (** [da.indexed_iter()] *)
  Definition indexed (da : list F) : list (nat * F) := combine (seq 0 (length da)) da.

  (** adam.rs:47-100. *)
  Definition adam_step_scaled (s : adam_state F) (w : list F) (phi : Features F) (sf : F) :=
    let p1 := ad_beta1_prod s *. ad_beta1 s in
    let p2 := ad_beta2_prod s *. ad_beta2 s in
    let* (m1, m2, w') :=
      match phi with
      | Dense da =>
          ofold (adam_coord true (ad_lr s) (ad_beta1 s) (ad_beta2 s) p1 p2 sf)
                (indexed da) (ad_exp_avg s, ad_exp_avg_sq s, w)
      | Sparse sa =>
          ofold (adam_coord false (ad_lr s) (ad_beta1 s) (ad_beta2 s) p1 p2 sf)
                (sa_acts sa)
                (mul_assign (ad_exp_avg s) (ad_beta1 s),
                 mul_assign (ad_exp_avg_sq s) (ad_beta2 s), w)
      end in
    Ret (MkAdam (ad_beta1 s) p1 (ad_beta2 s) p2 (ad_lr s) m1 m2, w', Ok tt).

  (** adam.rs:102-105. *)
  Definition adam_reset (s : adam_state F) : adam_state F :=
    MkAdam (ad_beta1 s) (ad_beta1_prod s) (ad_beta2 s) (ad_beta2_prod s) (ad_lr s)
      (fill_zero (ad_exp_avg s)) (fill_zero (ad_exp_avg_sq s)).

  Definition Adam : Optimiser F (adam_state F) :=
    MkOptimiser adam_step_scaled (default_step adam_step_scaled) adam_reset.

  (** ** AdaMax *)

  (** adamax.rs:29-41. *)
  Definition adamax_new (n_params : nat) (lr beta1 beta2 : F) : adamax_state F :=
    MkAdaMax beta1 beta1 beta2 lr (zeros n_params) (zeros n_params).

  (** One iteration of adamax.rs:59-69 ([decay = true]) and 78-88. *)
  Definition adamax_coord (decay : bool) (lr b1 b2 p1 sf : F)
      (st : list F * list F * list F) (ia : nat * F) : outcome (list F * list F * list F) :=
    let '(m, u, w) := st in
    let '(i, a) := ia in
    let g := a *. sf in
    let* x1 := vget m i in
    let m_new := (if decay then b1 *. x1 else x1) +. (fone -. b1) *. g in
    let* x2 := vget u i in
    let u_new := fmax (if decay then b2 *. x2 else x2) (fabs g) in
    let m_unbiased := m_new /. (fone -. p1) in
    let* m' := vset m i m_new in
    let* u' := vset u i u_new in
    let* w' := vupd w i (fun x => x +. lr *. m_unbiased /. (u_new +. EPS)) in
    Ret (m', u', w').

  (** adamax.rs:45-93. *)
  Definition adamax_step_scaled (s : adamax_state F) (w : list F) (phi : Features F) (sf : F) :=
    let p1 := am_beta1_prod s *. am_beta1 s in
    let* (m, u, w') :=
      match phi with
      | Dense da =>
          ofold (adamax_coord true (am_lr s) (am_beta1 s) (am_beta2 s) p1 sf)
                (indexed da) (am_exp_avg s, am_exp_inf s, w)
      | Sparse sa =>
          ofold (adamax_coord false (am_lr s) (am_beta1 s) (am_beta2 s) p1 sf)
                (sa_acts sa)
                (mul_assign (am_exp_avg s) (am_beta1 s),
                 mul_assign (am_exp_inf s) (am_beta2 s), w)
      end in
    Ret (MkAdaMax (am_beta1 s) p1 (am_beta2 s) (am_lr s) m u, w', Ok tt).

  (** adamax.rs:95-98. *)
  Definition adamax_reset (s : adamax_state F) : adamax_state F :=
    MkAdaMax (am_beta1 s) (am_beta1_prod s) (am_beta2 s) (am_lr s)
      (fill_zero (am_exp_avg s)) (fill_zero (am_exp_inf s)).

  Definition AdaMax : Optimiser F (adamax_state F) :=
    MkOptimiser adamax_step_scaled (default_step adamax_step_scaled) adamax_reset.
End Optim.

(** The library's optimisers as one type, for statements about all of them. *)
Inductive lib_opt (F : Type) : Type :=
| LSGD (lr : F)
| LISGD (lr : F)
| LMomentum (s : momentum_state F)
| LNAG (s : momentum_state F)
| LAdagrad (s : adagrad_state F)
| LAdam (s : adam_state F)
| LAdaMax (s : adamax_state F).
Arguments LSGD {F}.
Arguments LISGD {F}.
Arguments LMomentum {F}.
Arguments LNAG {F}.
Arguments LAdagrad {F}.
Arguments LAdam {F}.
Arguments LAdaMax {F}.

Section Lib.
  Context {F : Type} `{Scalar F}.

  (** Injects one optimiser's step into [lib_opt]. *)
  Definition lift_step {S} (inj : S -> lib_opt F) (r : outcome (S * list F * result unit))
      : outcome (lib_opt F * list F * result unit) :=
    let* (s, w, x) := r in Ret (inj s, w, x).

  Definition lib_step_scaled (o : lib_opt F) (w : list F) (phi : Features F) (sf : F) :=
    match o with
    | LSGD s => lift_step LSGD (o_step_scaled SGD s w phi sf)
    | LISGD s => lift_step LISGD (o_step_scaled ISGD s w phi sf)
    | LMomentum s => lift_step LMomentum (o_step_scaled SGDMomentum s w phi sf)
    | LNAG s => lift_step LNAG (o_step_scaled NAG s w phi sf)
    | LAdagrad s => lift_step LAdagrad (o_step_scaled Adagrad s w phi sf)
    | LAdam s => lift_step LAdam (o_step_scaled Adam s w phi sf)
    | LAdaMax s => lift_step LAdaMax (o_step_scaled AdaMax s w phi sf)
    end.

  Definition lib_step (o : lib_opt F) (w : list F) (phi : Features F) :=
    match o with
    | LSGD s => lift_step LSGD (o_step SGD s w phi)
    | LISGD s => lift_step LISGD (o_step ISGD s w phi)
    | LMomentum s => lift_step LMomentum (o_step SGDMomentum s w phi)
    | LNAG s => lift_step LNAG (o_step NAG s w phi)
    | LAdagrad s => lift_step LAdagrad (o_step Adagrad s w phi)
    | LAdam s => lift_step LAdam (o_step Adam s w phi)
    | LAdaMax s => lift_step LAdaMax (o_step AdaMax s w phi)
    end.

  Definition lib_reset (o : lib_opt F) : lib_opt F :=
    match o with
    | LSGD s => LSGD (o_reset SGD s)
    | LISGD s => LISGD (o_reset ISGD s)
    | LMomentum s => LMomentum (o_reset SGDMomentum s)
    | LNAG s => LNAG (o_reset NAG s)
    | LAdagrad s => LAdagrad (o_reset Adagrad s)
    | LAdam s => LAdam (o_reset Adam s)
    | LAdaMax s => LAdaMax (o_reset AdaMax s)
    end.

  Definition LibOptimiser : Optimiser F (lib_opt F) :=
    MkOptimiser lib_step_scaled lib_step lib_reset.
End Lib.
