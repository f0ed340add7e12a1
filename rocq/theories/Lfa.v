(** Linear function approximators: model of /repo/src/lib.rs:78-320. *)
From Coq Require Import List Arith ZArith.
From Verif Require Import Base Scalar HMap NdArray Features Optim.
Import ListNotations.

(** What the approximator needs of a [Basis<I, Value = Features>]
    (basis/mod.rs:22-41): its dimension and its projection. *)
Record Basis (F I : Type) := MkBasis {
  b_dim : nat;
  b_project : I -> outcome (result (Features F))
}.
Arguments MkBasis {F I}.
Arguments b_dim {F I}.
Arguments b_project {F I}.

(** lib.rs:91-100 ([struct LFA]); [S] is the optimiser's type. *)
Record LFA (F I W S : Type) := MkLFA {
  lfa_basis : Basis F I;
  lfa_weights : W;
  lfa_optimiser : S
}.
Arguments MkLFA {F I W S}.
Arguments lfa_basis {F I W S}.
Arguments lfa_weights {F I W S}.
Arguments lfa_optimiser {F I W S}.

Definition ScalarLFA (F I S : Type) := LFA F I (list F) S.
Definition VectorLFA (F I S : Type) := LFA F I (matrix F) S.

(** lib.rs:173-176 ([struct OutputIter]): the lanes not yet visited. *)
Record OutputIter (F : Type) := MkIter { it_basis : Features F; it_lanes : list (list F) }.
Arguments MkIter {F}.
Arguments it_basis {F}.
Arguments it_lanes {F}.

(** An owned [Array1]: its storage, and where in it the elements are. Element
    [k] is [ow_raw[ow_start + k * ow_stride]]; slicing by value
    ([slice_move], [invert_axis]) changes the latter and keeps the storage. *)
Record owned1 (F : Type) := MkOwned {
  ow_raw : list F; ow_start : nat; ow_stride : Z; ow_len : nat
}.
Arguments MkOwned {F}.
Arguments ow_raw {F}.
Arguments ow_start {F}.
Arguments ow_stride {F}.
Arguments ow_len {F}.

Section LFA.
  Context {F I S : Type} `{Scalar F} (opt : Optimiser F S).

  (** lib.rs:105-111. *)
  Definition lfa_new {W} (b : Basis F I) (w : W) (o : S) : LFA F I W S := MkLFA b w o.

  (** The state left by an update: same basis. *)
  Definition with_state {W} (a : LFA F I W S) (w : W) (s : S) : LFA F I W S :=
    MkLFA (lfa_basis a) w s.

  (** *** Scalar *)

  (** lib.rs:118-130. *)
  Definition scalar (b : Basis F I) (o : S) : ScalarLFA F I S :=
    MkLFA b (zeros (b_dim b)) o.

  (** lib.rs:133-140. *)
  Definition s_evaluate (a : ScalarLFA F I S) (input : I) : outcome (result F) :=
    let* r := b_project (lfa_basis a) input in
    rmap (fun b => dot b (lfa_weights a)) r.

  (** lib.rs:143-152. *)
  Definition s_update (a : ScalarLFA F I S) (input : I) (error : F)
      : outcome (ScalarLFA F I S * result unit) :=
    let* r := b_project (lfa_basis a) input in
    match r with
    | Err e => Ret (a, Err e)
    | Ok b =>
        let* (s, w, x) := o_step_scaled opt (lfa_optimiser a) (lfa_weights a) b error in
        Ret (with_state a w s, x)
    end.

  (** lib.rs:156-169. *)
  Definition s_update_with (a : ScalarLFA F I S) (input : I) (f : Features F -> F -> F)
      : outcome (ScalarLFA F I S * result unit) :=
    let* r := b_project (lfa_basis a) input in
    match r with
    | Err e => Ret (a, Err e)
    | Ok b =>
        let* v := dot b (lfa_weights a) in
        let e := f b v in
        let* (s, w, x) := o_step_scaled opt (lfa_optimiser a) (lfa_weights a) b e in
        Ret (with_state a w s, x)
    end.

  (** *** OutputIter *)

  (** lib.rs:181-183 ([next]). *)
  Definition it_next (it : OutputIter F) : outcome (option F * OutputIter F) :=
    match it_lanes it with
    | [] => Ret (None, it)
    | c :: cs => let* v := dot (it_basis it) c in Ret (Some v, MkIter (it_basis it) cs)
    end.

  (** lib.rs:185-187, 191-193. *)
  Definition it_size_hint (it : OutputIter F) : nat * option nat :=
    (length (it_lanes it), Some (length (it_lanes it))).
  Definition it_len (it : OutputIter F) : nat := length (it_lanes it).

  (** [it.collect()]: calls [next] until [None]; the bound on the number of
      calls is the iterator's length. *)
  Fixpoint it_collect_n (n : nat) (it : OutputIter F) : outcome (list F) :=
    match n with
    | O => Ret []
    | Datatypes.S n' =>
        let* (o, it') := it_next it in
        match o with
        | None => Ret []
        | Some v => let* vs := it_collect_n n' it' in Ret (v :: vs)
        end
    end.
  Definition it_collect (it : OutputIter F) : outcome (list F) :=
    it_collect_n (Datatypes.S (it_len it)) it.

  (** *** Vector *)

  (** lib.rs:200-212. *)
  Definition vector (b : Basis F I) (o : S) (n_outputs : nat) : VectorLFA F I S :=
    MkLFA b (mzeros (b_dim b) n_outputs) o.

  (** lib.rs:215-217. *)
  Definition n_outputs (a : VectorLFA F I S) : nat := ncols (lfa_weights a).

  (** lib.rs:254-262. *)
  Definition v_try_iter (a : VectorLFA F I S) (input : I) : outcome (result (OutputIter F)) :=
    let* r := b_project (lfa_basis a) input in
    rmap (fun b => let* cs := columns (lfa_weights a) in Ret (MkIter b cs)) r.

  (** lib.rs:242-250. *)
  Definition v_iter (a : VectorLFA F I S) (input : I) : outcome (OutputIter F) :=
    let* r := b_project (lfa_basis a) input in
    match r with
    | Err _ => Panic
    | Ok b => let* cs := columns (lfa_weights a) in Ret (MkIter b cs)
    end.

  (** lib.rs:220-225. *)
  Definition v_evaluate (a : VectorLFA F I S) (input : I) : outcome (result (list F)) :=
    let* r := v_try_iter a input in rmap it_collect r.

  (** lib.rs:229-236. *)
  Definition v_evaluate_index (a : VectorLFA F I S) (input : I) (index : nat) : outcome (result F) :=
    let* r := b_project (lfa_basis a) input in
    rmap (fun b => let* c := column (lfa_weights a) index in dot b c) r.

  (** The fold shared by lib.rs:274-279 and 312-317: errors zipped with the
      columns from [j] on; [acc.and(step)] evaluates the step regardless. *)
  Fixpoint update_columns (b : Features F) (errors : list F) (j : nat)
      (wm : matrix F) (s : S) (acc : result unit) : outcome (S * matrix F * result unit) :=
    match errors with
    | [] => Ret (s, wm, acc)
    | e :: es =>
        if j <? ncols wm then
          let* c := column wm j in
          let* (s', c', x) := o_step_scaled opt s c b e in
          let* wm' := set_column wm j c' in
          update_columns b es (Datatypes.S j) wm' s' (rand acc x)
        else Ret (s, wm, acc)
    end.

  (** lib.rs:265-281. *)
  Definition v_update (a : VectorLFA F I S) (input : I) (errors : list F)
      : outcome (VectorLFA F I S * result unit) :=
    let* r := b_project (lfa_basis a) input in
    match r with
    | Err e => Ret (a, Err e)
    | Ok b =>
        let* (s, wm, x) := update_columns b errors 0 (lfa_weights a) (lfa_optimiser a) (Ok tt) in
        Ret (with_state a wm s, x)
    end.

  (** lib.rs:285-294. *)
  Definition v_update_index (a : VectorLFA F I S) (input : I) (index : nat) (error : F)
      : outcome (VectorLFA F I S * result unit) :=
    let* r := b_project (lfa_basis a) input in
    match r with
    | Err e => Ret (a, Err e)
    | Ok b =>
        let* c := column (lfa_weights a) index in
        let* (s, c', x) := o_step_scaled opt (lfa_optimiser a) c b error in
        let* wm := set_column (lfa_weights a) index c' in
        Ret (with_state a wm s, x)
    end.

  (** lib.rs:298-319. The closure receives the evaluated outputs; of the array
      it returns, [into_raw_vec] takes the storage. *)
  Definition v_update_with (a : VectorLFA F I S) (input : I)
      (f : Features F -> list F -> owned1 F) : outcome (VectorLFA F I S * result unit) :=
    let* r := b_project (lfa_basis a) input in
    match r with
    | Err e => Ret (a, Err e)
    | Ok b =>
        let* values := matmul b (lfa_weights a) in
        let errors := ow_raw (f b values) in
        let* (s, wm, x) := update_columns b errors 0 (lfa_weights a) (lfa_optimiser a) (Ok tt) in
        Ret (with_state a wm s, x)
    end.
End LFA.
