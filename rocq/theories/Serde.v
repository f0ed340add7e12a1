(** Model of the hand-written [Deserialize] of /repo/src/basis/polynomial/mod.rs
    and of the derived [Serialize] beside it.

    A format (JSON, bincode, ...) hands the visitor either a sequence or a map
    of values; both are lists here. Values are assumed to survive the format;
    [next_element]/[next_value] fail with a type error on a value of another
    type. What a format does with elements the visitor does not ask for is the
    format's business and not modelled. *)
From Coq Require Import String List Arith.
From Verif Require Import Base Scalar Basis.
Import ListNotations.

(** One value on the wire: a number, a list of pairs of floats, anything else. *)
Inductive wire (F : Type) :=
| WNum (n : nat)
| WPairs (l : list (F * F))
| WOther.
Arguments WNum {F}. Arguments WPairs {F}. Arguments WOther {F}.

(** Keys of a map: serde's [field_identifier] accepts names and positions. *)
Inductive wire_key := KName (s : string) | KPos (n : nat).

(** The [de::Error]s the visitor can produce or pass on. *)
Inductive de_error :=
| DuplicateField (name : string)
| MissingField (name : string)
| InvalidLength (n : nat)
| UnknownField (k : wire_key)
| InvalidType
| UnknownVariant (k : wire_key)
| Custom (msg : string).

Inductive de_result (A : Type) := DeOk (a : A) | DeErr (e : de_error).
Arguments DeOk {A}. Arguments DeErr {A}.

Section Serde.
  Context {F : Type} `{Scalar F}.

  (** [u8::deserialize]. *)
  Definition de_u8 (v : wire F) : de_result nat :=
    match v with
    | WNum n => if n <=? 255 then DeOk n else DeErr InvalidType
    | _ => DeErr InvalidType
    end.

  (** [Vec::<(f64, f64)>::deserialize]. *)
  Definition de_limits (v : wire F) : de_result (list (F * F)) :=
    match v with
    | WPairs l => DeOk l
    | _ => DeErr InvalidType
    end.

  (** polynomial/mod.rs:256-264 ([enum Field], derived). *)
  Inductive field := FOrder | FLimits.
  Definition de_field (k : wire_key) : de_result field :=
    match k with
    | KName s => if String.eqb s "order" then DeOk FOrder
                 else if String.eqb s "limits" then DeOk FLimits
                 else DeErr (UnknownField k)
    | KPos 0 => DeOk FOrder
    | KPos 1 => DeOk FLimits
    | KPos _ => DeErr (UnknownField k)
    end.

  (** polynomial/mod.rs:122-129: derived, [polynomials] is skipped. *)
  Definition ser_seq (b : basis F) : list (wire F) :=
    match b with
    | BChebyshev order limits _ => [WNum order; WPairs limits]
    | _ => []
    end.
  Definition ser_map (b : basis F) : list (wire_key * wire F) :=
    match b with
    | BChebyshev order limits _ => [(KName "order", WNum order); (KName "limits", WPairs limits)]
    | _ => []
    end.

  (** polynomial/mod.rs:275-287. *)
  Definition visit_seq (seq : list (wire F)) : outcome (de_result (basis F)) :=
    match seq with
    | [] => Ret (DeErr (InvalidLength 0))
    | v0 :: seq1 =>
        match de_u8 v0 with
        | DeErr e => Ret (DeErr e)
        | DeOk order =>
            match seq1 with
            | [] => Ret (DeErr (InvalidLength 1))
            | v1 :: _ =>
                match de_limits v1 with
                | DeErr e => Ret (DeErr e)
                | DeOk limits => let* b := chebyshev_new order limits in Ret (DeOk b)
                end
            end
        end
    end.

  (** polynomial/mod.rs:293-316, the loop and what follows it. *)
  Fixpoint visit_entries (m : list (wire_key * wire F)) (order : option nat)
      (limits : option (list (F * F))) : outcome (de_result (basis F)) :=
    match m with
    | (k, v) :: m' =>
        match de_field k with
        | DeErr e => Ret (DeErr e)
        | DeOk FOrder =>
            match order with
            | Some _ => Ret (DeErr (DuplicateField "order"))
            | None =>
                match de_u8 v with
                | DeErr e => Ret (DeErr e)
                | DeOk n => visit_entries m' (Some n) limits
                end
            end
        | DeOk FLimits =>
            match limits with
            | Some _ => Ret (DeErr (DuplicateField "limits"))
            | None =>
                match de_limits v with
                | DeErr e => Ret (DeErr e)
                | DeOk l => visit_entries m' order (Some l)
                end
            end
        end
    | [] =>
        match order with
        | None => Ret (DeErr (MissingField "order"))
        | Some n =>
            match limits with
            | None => Ret (DeErr (MissingField "limits"))
            | Some l => let* b := chebyshev_new n l in Ret (DeOk b)
            end
        end
    end.

  (** polynomial/mod.rs:289-316. *)
  Definition visit_map (m : list (wire_key * wire F)) : outcome (de_result (basis F)) :=
    visit_entries m None None.
End Serde.
