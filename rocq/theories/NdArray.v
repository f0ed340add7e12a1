(** The fragment of ndarray's Array1/Array2 that lfa uses (ndarray 0.15).
    [Array1<f64>] is [list F]; out-of-range indexing panics. *)
From Coq Require Import List Arith.
From Verif Require Import Base Scalar.
Import ListNotations.

Section Vec.
  Context {A : Type}.

  (** [a[i]] *)
  Definition vget (l : list A) (i : nat) : outcome A :=
    match nth_error l i with Some x => Ret x | None => Panic end.

  (** [a[i] = f(a[i])] *)
  Fixpoint vupd (l : list A) (i : nat) (f : A -> A) : outcome (list A) :=
    match l, i with
    | [], _ => Panic
    | x :: l', O => Ret (f x :: l')
    | x :: l', S j => let* r := vupd l' j f in Ret (x :: r)
    end.

  (** [a[i] = v] *)
  Definition vset (l : list A) (i : nat) (v : A) : outcome (list A) :=
    vupd l i (fun _ => v).

  (** [rhs.broadcast(n)] for one-dimensional [rhs]: equal length, or length 1
      repeated, otherwise the shapes are incompatible and ndarray panics. *)
  Definition broadcast (rhs : list A) (n : nat) : outcome (list A) :=
    if length rhs =? n then Ret rhs
    else match rhs with
         | [x] => Ret (repeat x n)
         | _ => Panic
         end.

  Fixpoint map2 {B C} (f : A -> B -> C) (xs : list A) (ys : list B) : list C :=
    match xs, ys with
    | x :: xs', y :: ys' => f x y :: map2 f xs' ys'
    | _, _ => []
    end.
End Vec.

(** [self.zip_mut_with(rhs, f)] *)
Definition zip_mut_with {A} (f : A -> A -> A) (self rhs : list A) : outcome (list A) :=
  let* r := broadcast rhs (length self) in Ret (map2 f self r).

Section Num.
  Context {F : Type} `{Scalar F}.

  (** [Array1::zeros(n)] *)
  Definition zeros (n : nat) : list F := repeat fzero n.

  (** [self.add_assign(rhs)]: x += y *)
  Definition add_assign (self rhs : list F) : outcome (list F) :=
    zip_mut_with fadd self rhs.

  (** [self.scaled_add(alpha, rhs)]: y = y + alpha * x *)
  Definition scaled_add (alpha : F) (self rhs : list F) : outcome (list F) :=
    zip_mut_with (fun y x => fadd y (fmul alpha x)) self rhs.

  (** [self.mul_assign(scalar)] *)
  Definition mul_assign (self : list F) (m : F) : list F :=
    map (fun x => fmul x m) self.

  (** [a.dot(b)] on one-dimensional arrays: asserts equal lengths. *)
  Definition dot1 (a b : list F) : outcome F :=
    if length a =? length b then Ret (nd_dot a b) else Panic.
End Num.

(** [Array2<F>]: rows, and the number of columns (needed when there are no
    rows). Well-formed when every row has [mcols] entries. *)
Record matrix (F : Type) := MkMatrix { mrows : list (list F); mcols : nat }.
Arguments MkMatrix {F}.
Arguments mrows {F}.
Arguments mcols {F}.

Section Matrix.
  Context {F : Type}.

  Definition matrix_ok (m : matrix F) : Prop :=
    Forall (fun r => length r = mcols m) (mrows m).

  (** [m.nrows()], [m.ncols()] *)
  Definition nrows (m : matrix F) : nat := length (mrows m).
  Definition ncols (m : matrix F) : nat := mcols m.

  (** [m.column(j)]: panics when [j >= ncols]. *)
  Definition column (m : matrix F) (j : nat) : outcome (list F) :=
    if j <? mcols m then omapM (fun r => vget r j) (mrows m) else Panic.

  (** [m.columns()], left to right. *)
  Definition columns (m : matrix F) : outcome (list (list F)) :=
    omapM (column m) (seq 0 (mcols m)).

  (** What writing through [m.column_mut(j)] leaves in the matrix: row [i] gets
      [c[i]] at position [j]. *)
  Fixpoint set_rows (rows : list (list F)) (j : nat) (c : list F) : outcome (list (list F)) :=
    match rows, c with
    | [], [] => Ret []
    | r :: rows', x :: c' =>
        let* r' := vset r j x in
        let* rest := set_rows rows' j c' in
        Ret (r' :: rest)
    | _, _ => Panic
    end.

  Definition set_column (m : matrix F) (j : nat) (c : list F) : outcome (matrix F) :=
    let* rows := set_rows (mrows m) j c in
    Ret (MkMatrix rows (mcols m)).
End Matrix.

(** [Array2::zeros((n, k))] *)
Definition mzeros {F} `{Scalar F} (n k : nat) : matrix F :=
  MkMatrix (repeat (zeros k) n) k.
