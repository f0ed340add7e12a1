(** Outcomes, results and errors.

    Models the control-flow vocabulary shared by all of lfa: Rust panics,
    [Result], and the crate's error type (/repo/src/error.rs). *)
From Coq Require Import List Arith String DecimalString.
Import ListNotations.

(** A Rust computation either returns or panics. The state left behind by a
    panicking call is modelled separately, in Unwind.v. *)
Inductive outcome (A : Type) : Type :=
| Ret (a : A)
| Panic.
Arguments Ret {A} a.
Arguments Panic {A}.

Definition obind {A B} (x : outcome A) (f : A -> outcome B) : outcome B :=
  match x with
  | Ret a => f a
  | Panic => Panic
  end.

Definition omap {A B} (f : A -> B) (x : outcome A) : outcome B :=
  obind x (fun a => Ret (f a)).

Notation "'let*' x := e1 'in' e2" := (obind e1 (fun x => e2))
  (at level 200, x pattern, e1 at level 100, e2 at level 200, right associativity).

(** Left fold of a panicking step, as a Rust [for] loop with mutable state. *)
Fixpoint ofold {A B} (f : B -> A -> outcome B) (l : list A) (b : B) : outcome B :=
  match l with
  | [] => Ret b
  | a :: l' => let* b' := f b a in ofold f l' b'
  end.

(** [iter.map(f).collect()] with a panicking [f]. *)
Fixpoint omapM {A B} (f : A -> outcome B) (l : list A) : outcome (list B) :=
  match l with
  | [] => Ret []
  | a :: l' => let* b := f a in let* bs := omapM f l' in Ret (b :: bs)
  end.

(** src/error.rs:13-17 ([enum ErrorKind]). *)
Inductive error_kind := KBasis | KEvaluation | KOptimisation.

(** src/error.rs:25-28 ([struct Error]). *)
Record error := MkError { err_kind : error_kind; err_message : string }.

(** [format!("{}", n)] for a usize: decimal digits. *)
Definition show_nat (n : nat) : string := NilEmpty.string_of_uint (Nat.to_uint n).

(** src/error.rs:31-39 ([Error::index_error]). *)
Definition index_error (index dim : nat) : error :=
  MkError KBasis
    ("Index (" ++ show_nat index ++ ") exceeded dimensionality ("
     ++ show_nat dim ++ ") of the projection.")%string.

(** src/error.rs:42-44 ([Display]): [writeln!], the message and a newline. *)
Definition error_display (e : error) : string :=
  (err_message e ++ String (Ascii.ascii_of_nat 10) EmptyString)%string.

(** src/error.rs:46-48 ([StdError]): [description] is the message; [source] and
    [cause] are the trait's defaults. *)
Definition error_description (e : error) : string := err_message e.
Definition error_source (e : error) : option error := None.

(** src/error.rs:5 ([type Result<T>]). *)
Inductive result (A : Type) : Type :=
| Ok (a : A)
| Err (e : error).
Arguments Ok {A} a.
Arguments Err {A} e.

(** [Result::map] with a closure that may panic. *)
Definition rmap {A B} (f : A -> outcome B) (r : result A) : outcome (result B) :=
  match r with
  | Ok a => let* b := f a in Ret (Ok b)
  | Err e => Ret (Err e)
  end.

(** [Result::and] on [Result<()>]: keeps the first error. *)
Definition rand (a b : result unit) : result unit :=
  match a with
  | Ok _ => b
  | Err e => Err e
  end.

(** src/error.rs:50-58 ([check_index!]). *)
Definition check_index {A} (index dim : nat) (code : outcome (result A)) : outcome (result A) :=
  if index <? dim then code else Ret (Err (index_error index dim)).
