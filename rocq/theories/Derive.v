(** Model of the code [#[derive(Serialize, Deserialize)]] generates for the
    structs and enums of lfa, over the values a format carries.

    The features "serde" and "std" of the crate are on (Cargo.toml:20-24). A
    format is free to write a struct as a map from field names or as a sequence,
    and a variant by name or by number ([shape]); both are read back. The
    formats themselves (text, bytes, limits on numbers) are not modelled:
    integers on the wire fit in 64 bits and a float is read back as the same
    float. A format that writes map keys as text hands numeric keys back as
    numbers, as serde_json does. Newtype structs are written as their content;
    the one-element sequence their visitor also takes is left out. Elements of a
    sequence that no field asks for are left to the format, here ignored. *)
From Coq Require Import String List Arith ZArith.
From Verif Require Import Base Scalar HMap NdArray Features Kernels TileCoding Basis Optim Serde.
Import ListNotations.
Local Open Scope string_scope.
Local Open Scope list_scope.
Local Open Scope nat_scope.

(** serde's data model, as far as lfa uses it. [VVariant] is a variant of an
    enum and its payload. *)
Inductive value (F : Type) : Type :=
| VUnit
| VNat (n : nat)
| VFloat (x : F)
| VStr (s : string)
| VSeq (l : list (value F))
| VMap (m : list (wire_key * value F))
| VVariant (k : wire_key) (v : value F).
Arguments VUnit {F}. Arguments VNat {F}. Arguments VFloat {F}. Arguments VStr {F}.
Arguments VSeq {F}. Arguments VMap {F}. Arguments VVariant {F}.

Inductive shape := AsMap | AsSeq.

(** What a [Deserialize] implementation does with a value. Only that of
    Chebyshev can panic. *)
Definition dec (F T : Type) := value F -> outcome (de_result T).

Definition dbind {A B} (x : outcome (de_result A)) (f : A -> outcome (de_result B)) : outcome (de_result B) :=
  match x with
  | Panic => Panic
  | Ret (DeErr e) => Ret (DeErr e)
  | Ret (DeOk a) => f a
  end.
Definition dret {A} (a : A) : outcome (de_result A) := Ret (DeOk a).
Definition dfail {A} (e : de_error) : outcome (de_result A) := Ret (DeErr e).
Notation "'let?' x := e 'in' k" := (dbind e (fun x => k)) (at level 200, x binder, right associativity).

Section Derive.
  Context {F : Type} `{Scalar F}.
  Local Notation value := (value F).
  Local Notation dec := (dec F).

  (** ** Primitives, collections (serde's own implementations) *)

  (** [f64]: integers are converted. *)
  Definition de_f64 : dec F := fun v =>
    match v with
    | VFloat x => dret x
    | VNat n => dret (fofnat n)
    | _ => dfail InvalidType
    end.

  (** [usize]. *)
  Definition de_usize : dec nat := fun v => match v with VNat n => dret n | _ => dfail InvalidType end.

  (** [u8]: refuses what does not fit. *)
  Definition de_byte : dec nat := fun v =>
    match v with
    | VNat n => if n <=? 255 then dret n else dfail InvalidType
    | _ => dfail InvalidType
    end.

  (** [String]. *)
  Definition de_string : dec string := fun v => match v with VStr s => dret s | _ => dfail InvalidType end.

  (** [Vec<T>]: element by element, the first error stops. *)
  Fixpoint de_list {T} (d : dec T) (l : list value) : outcome (de_result (list T)) :=
    match l with
    | [] => dret []
    | v :: l' => let? x := d v in let? xs := de_list d l' in dret (x :: xs)
    end.
  Definition de_vec {T} (d : dec T) : dec (list T) := fun v =>
    match v with VSeq l => de_list d l | _ => dfail InvalidType end.

  (** [(A, B)]. *)
  Definition de_pair {A B} (da : dec A) (db : dec B) : dec (A * B) := fun v =>
    match v with
    | VSeq [] => dfail (InvalidLength 0)
    | VSeq [a] => let? _ := da a in dfail (InvalidLength 1)
    | VSeq (a :: b :: _) => let? x := da a in let? y := db b in dret (x, y)
    | _ => dfail InvalidType
    end.

  (** [HashMap<usize, f64>]: inserts one entry after the other, so that the last
      of several entries with one key stays. *)
  Definition de_index_key (k : wire_key) : outcome (de_result nat) :=
    match k with KPos n => dret n | KName _ => dfail InvalidType end.
  Fixpoint de_entries (m : list (wire_key * value)) (acc : hmap F) : outcome (de_result (hmap F)) :=
    match m with
    | [] => dret acc
    | (k, v) :: m' =>
        let? i := de_index_key k in
        let? x := de_f64 v in
        de_entries m' (hm_insert acc i x)
    end.
  Definition de_hmap : dec (hmap F) := fun v =>
    match v with VMap m => de_entries m [] | _ => dfail InvalidType end.

  (** [HashSet<usize>]: repeated elements are inserted once. *)
  Definition set_insert (s : list nat) (i : nat) : list nat :=
    if existsb (Nat.eqb i) s then s else s ++ [i].
  Definition de_hset : dec (list nat) := fun v =>
    let? l := de_vec de_usize v in dret (fold_left set_insert l []).

  (** ** Derived structs *)

  (** A named field and the implementation of its type. *)
  Record field_de := MkField { fd_name : string; fd_type : Type; fd_de : dec fd_type }.

  (** The local variables of the generated [visit_map], [None] until their key
      has been seen, and the values once all are there. *)
  Fixpoint slots (fs : list field_de) : Type :=
    match fs with [] => unit | f :: fs' => (option (fd_type f) * slots fs')%type end.
  Fixpoint full (fs : list field_de) : Type :=
    match fs with [] => unit | f :: fs' => (fd_type f * full fs')%type end.
  Fixpoint no_slots (fs : list field_de) : slots fs :=
    match fs with [] => tt | f :: fs' => (None, no_slots fs') end.

  (** The generated field identifier: by name, or by position. *)
  Definition names (k : wire_key) (name : string) (i : nat) : bool :=
    match k with KName s => String.eqb s name | KPos n => n =? i end.

  (** One round of the generated loop. A key of no field is skipped with its
      value ([IgnoredAny]); [i] is the position of the first of [fs]. *)
  Fixpoint put (i : nat) (fs : list field_de) (k : wire_key) (v : value) : slots fs -> outcome (de_result (slots fs)) :=
    match fs with
    | [] => fun s => dret s
    | f :: fs' => fun s =>
        if names k (fd_name f) i then
          match fst s with
          | Some _ => dfail (DuplicateField (fd_name f))
          | None => let? x := fd_de f v in dret (Some x, snd s)
          end
        else let? s' := put (S i) fs' k v (snd s) in dret (fst s, s')
    end.
  Fixpoint put_all (fs : list field_de) (m : list (wire_key * value)) (s : slots fs) : outcome (de_result (slots fs)) :=
    match m with
    | [] => dret s
    | (k, v) :: m' => let? s' := put 0 fs k v s in put_all fs m' s'
    end.

  (** After the loop: the first field without a value is reported. *)
  Fixpoint finish (fs : list field_de) : slots fs -> outcome (de_result (full fs)) :=
    match fs with
    | [] => fun _ => dret tt
    | f :: fs' => fun s =>
        match fst s with
        | None => dfail (MissingField (fd_name f))
        | Some x => let? y := finish fs' (snd s) in dret (x, y)
        end
    end.
  Definition de_struct_map (fs : list field_de) (m : list (wire_key * value)) : outcome (de_result (full fs)) :=
    let? s := put_all fs m (no_slots fs) in finish fs s.

  (** The generated [visit_seq]. *)
  Fixpoint de_struct_seq (i : nat) (fs : list field_de) (l : list value) : outcome (de_result (full fs)) :=
    match fs with
    | [] => dret tt
    | f :: fs' =>
        match l with
        | [] => dfail (InvalidLength i)
        | v :: l' => let? x := fd_de f v in let? y := de_struct_seq (S i) fs' l' in dret (x, y)
        end
    end.

  Definition de_struct {A} (fs : list field_de) (mk : full fs -> A) : dec A := fun v =>
    match v with
    | VMap m => let? x := de_struct_map fs m in dret (mk x)
    | VSeq l => let? x := de_struct_seq 0 fs l in dret (mk x)
    | _ => dfail InvalidType
    end.

  (** The generated [Serialize] of a struct. *)
  Definition ser_struct (sh : shape) (l : list (string * value)) : value :=
    match sh with
    | AsMap => VMap (map (fun nv => (KName (fst nv), snd nv)) l)
    | AsSeq => VSeq (map snd l)
    end.

  (** Enum variants by name or number. *)
  Definition ser_variant (sh : shape) (name : string) (i : nat) (v : value) : value :=
    VVariant (match sh with AsMap => KName name | AsSeq => KPos i end) v.

  (** ** ndarray's arrays (array_serde.rs of ndarray 0.15) *)

  (** [{v: 1, dim, data}]; keys only by name, unknown keys refused, the last of
      repeated fields stays. *)
  Definition de_version : dec nat := fun v =>
    let? n := de_byte v in if n =? 1 then dret n else dfail (Custom "unknown array version").
  Definition from_shape {A} (r : option A) : outcome (de_result A) :=
    match r with Some a => dret a | None => dfail (Custom "data and dimension must match in size") end.

  Section Array.
    Context {D A : Type} (de_dim : dec D) (build_array : D -> list F -> option A).

    Fixpoint array_entries (m : list (wire_key * value)) (v : option nat) (dim : option D) (data : option (list F))
        : outcome (de_result A) :=
      match m with
      | (k, x) :: m' =>
          match k with
          | KPos _ => dfail InvalidType
          | KName s =>
              if String.eqb s "v" then let? n := de_version x in array_entries m' (Some n) dim data
              else if String.eqb s "dim" then let? d := de_dim x in array_entries m' v (Some d) data
              else if String.eqb s "data" then let? l := de_vec de_f64 x in array_entries m' v dim (Some l)
              else dfail (UnknownField k)
          end
      | [] =>
          match v, data, dim with
          | None, _, _ => dfail (MissingField "v")
          | _, None, _ => dfail (MissingField "data")
          | _, _, None => dfail (MissingField "dim")
          | Some _, Some l, Some d => from_shape (build_array d l)
          end
      end.

    Definition de_array : dec A := fun v =>
      match v with
      | VMap m => array_entries m None None None
      | VSeq [] => dfail (InvalidLength 0)
      | VSeq (x :: l1) =>
          let? _ := de_version x in
          match l1 with
          | [] => dfail (InvalidLength 1)
          | y :: l2 =>
              let? d := de_dim y in
              match l2 with
              | [] => dfail (InvalidLength 2)
              | z :: _ => let? l := de_vec de_f64 z in from_shape (build_array d l)
              end
          end
      | _ => dfail InvalidType
      end.
  End Array.

  (** [[usize; 1]] and [[usize; 2]], the dimensions. *)
  Definition de_dim1 : dec nat := fun v =>
    match v with
    | VSeq [] => dfail (InvalidLength 0)
    | VSeq (a :: _) => de_usize a
    | _ => dfail InvalidType
    end.
  Definition de_dim2 : dec (nat * nat) := de_pair de_usize de_usize.

  (** [ArrayBase::from_shape_vec]: the sizes must agree. *)
  Definition shape1 (n : nat) (l : list F) : option (list F) := if length l =? n then Some l else None.
  Fixpoint chunks (r c : nat) (l : list F) : list (list F) :=
    match r with O => [] | S r' => firstn c l :: chunks r' c (skipn c l) end.
  Definition shape2 (rc : nat * nat) (l : list F) : option (matrix F) :=
    if length l =? fst rc * snd rc then Some (MkMatrix (chunks (fst rc) (snd rc) l) (snd rc)) else None.

  Definition de_array1 : dec (list F) := de_array de_dim1 shape1.
  Definition de_array2 : dec (matrix F) := de_array de_dim2 shape2.

  Definition ser_floats (l : list F) : value := VSeq (map VFloat l).
  Definition ser_array1 (sh : shape) (l : list F) : value :=
    ser_struct sh [("v", VNat 1); ("dim", VSeq [VNat (length l)]); ("data", ser_floats l)].
  Definition ser_array2 (sh : shape) (m : matrix F) : value :=
    ser_struct sh [("v", VNat 1); ("dim", VSeq [VNat (nrows m); VNat (mcols m)]); ("data", ser_floats (concat (mrows m)))].

  (** ** error.rs *)

  (** error.rs:13-17. *)
  Definition ser_kind (sh : shape) (k : error_kind) : value :=
    match k with
    | KBasis => ser_variant sh "Basis" 0 VUnit
    | KEvaluation => ser_variant sh "Evaluation" 1 VUnit
    | KOptimisation => ser_variant sh "Optimisation" 2 VUnit
    end.
  Definition de_unit_variant {A} (a : A) (v : value) : outcome (de_result A) :=
    match v with VUnit => dret a | _ => dfail InvalidType end.
  Definition de_kind : dec error_kind := fun v =>
    match v with
    | VVariant k p =>
        if names k "Basis" 0 then de_unit_variant KBasis p
        else if names k "Evaluation" 1 then de_unit_variant KEvaluation p
        else if names k "Optimisation" 2 then de_unit_variant KOptimisation p
        else dfail (UnknownVariant k)
    | _ => dfail InvalidType
    end.

  (** error.rs:25-28. *)
  Definition ser_error (sh : shape) (e : error) : value :=
    ser_struct sh [("kind", ser_kind sh (err_kind e)); ("message", VStr (err_message e))].
  Definition de_err : dec error :=
    de_struct [MkField "kind" _ de_kind; MkField "message" _ de_string] (fun x => MkError (fst x) (fst (snd x))).

  (** ** features.rs *)

  (** features.rs:92-98. *)
  Definition ser_hmap (m : hmap F) : value := VMap (map (fun kv => (KPos (fst kv), VFloat (snd kv))) m).
  Definition ser_sparse (sh : shape) (a : SparseActivations F) : value :=
    ser_struct sh [("dim", VNat (sa_dim a)); ("activations", ser_hmap (sa_acts a))].
  Definition de_sparse : dec (SparseActivations F) :=
    de_struct [MkField "dim" _ de_usize; MkField "activations" _ de_hmap] (fun x => MkSparse (fst x) (fst (snd x))).

  (** features.rs:123-129. *)
  Definition ser_features (sh : shape) (f : Features F) : value :=
    match f with
    | Dense l => ser_variant sh "Dense" 0 (ser_array1 sh l)
    | Sparse a => ser_variant sh "Sparse" 1 (ser_sparse sh a)
    end.
  Definition de_features : dec (Features F) := fun v =>
    match v with
    | VVariant k p =>
        if names k "Dense" 0 then let? l := de_array1 p in dret (Dense l)
        else if names k "Sparse" 1 then let? a := de_sparse p in dret (Sparse a)
        else dfail (UnknownVariant k)
    | _ => dfail InvalidType
    end.

  (** ** optim/*.rs *)

  (** momentum.rs:11-16, nesterov.rs:12-17. *)
  Definition ser_momentum (sh : shape) (s : momentum_state F) : value :=
    ser_struct sh [("momentum", VFloat (mo_momentum s)); ("learning_rate", VFloat (mo_lr s));
                   ("velocity", ser_array1 sh (mo_velocity s))].
  Definition de_momentum : dec (momentum_state F) :=
    de_struct [MkField "momentum" _ de_f64; MkField "learning_rate" _ de_f64; MkField "velocity" _ de_array1]
      (fun x => let '(a, (b, (c, _))) := x in MkMomentum a b c).

  (** adagrad.rs:12-15. *)
  Definition ser_adagrad (sh : shape) (s : adagrad_state F) : value :=
    ser_struct sh [("learning_rate", VFloat (ag_lr s)); ("accumulator", ser_array1 sh (ag_acc s))].
  Definition de_adagrad : dec (adagrad_state F) :=
    de_struct [MkField "learning_rate" _ de_f64; MkField "accumulator" _ de_array1]
      (fun x => let '(a, (b, _)) := x in MkAdagrad a b).

  (** adam.rs:16-27. *)
  Definition ser_adam (sh : shape) (s : adam_state F) : value :=
    ser_struct sh [("beta1", VFloat (ad_beta1 s)); ("beta1_prod", VFloat (ad_beta1_prod s));
                   ("beta2", VFloat (ad_beta2 s)); ("beta2_prod", VFloat (ad_beta2_prod s));
                   ("learning_rate", VFloat (ad_lr s));
                   ("exp_avg", ser_array1 sh (ad_exp_avg s)); ("exp_avg_sq", ser_array1 sh (ad_exp_avg_sq s))].
  Definition de_adam : dec (adam_state F) :=
    de_struct [MkField "beta1" _ de_f64; MkField "beta1_prod" _ de_f64; MkField "beta2" _ de_f64;
               MkField "beta2_prod" _ de_f64; MkField "learning_rate" _ de_f64;
               MkField "exp_avg" _ de_array1; MkField "exp_avg_sq" _ de_array1]
      (fun x => let '(a, (b, (c, (d, (e, (f, (g, _))))))) := x in MkAdam a b c d e f g).

  (** adamax.rs:16-26. *)
  Definition ser_adamax (sh : shape) (s : adamax_state F) : value :=
    ser_struct sh [("beta1", VFloat (am_beta1 s)); ("beta1_prod", VFloat (am_beta1_prod s));
                   ("beta2", VFloat (am_beta2 s)); ("learning_rate", VFloat (am_lr s));
                   ("exp_avg", ser_array1 sh (am_exp_avg s)); ("exp_inf", ser_array1 sh (am_exp_inf s))].
  Definition de_adamax : dec (adamax_state F) :=
    de_struct [MkField "beta1" _ de_f64; MkField "beta1_prod" _ de_f64; MkField "beta2" _ de_f64;
               MkField "learning_rate" _ de_f64; MkField "exp_avg" _ de_array1; MkField "exp_inf" _ de_array1]
      (fun x => let '(a, (b, (c, (d, (e, (f, _)))))) := x in MkAdaMax a b c d e f).

  (** The program fixes the type of the optimiser it loads. *)
  Inductive opt_type := TSGD | TISGD | TMomentum | TNAG | TAdagrad | TAdam | TAdaMax.
  Definition type_of_opt (o : lib_opt F) : opt_type :=
    match o with
    | LSGD _ => TSGD | LISGD _ => TISGD | LMomentum _ => TMomentum | LNAG _ => TNAG
    | LAdagrad _ => TAdagrad | LAdam _ => TAdam | LAdaMax _ => TAdaMax
    end.
  (** sgd.rs:9 and isgd.rs:9 are newtypes. *)
  Definition ser_opt (sh : shape) (o : lib_opt F) : value :=
    match o with
    | LSGD lr | LISGD lr => VFloat lr
    | LMomentum s | LNAG s => ser_momentum sh s
    | LAdagrad s => ser_adagrad sh s
    | LAdam s => ser_adam sh s
    | LAdaMax s => ser_adamax sh s
    end.
  Definition de_opt (t : opt_type) : dec (lib_opt F) := fun v =>
    match t with
    | TSGD => let? x := de_f64 v in dret (LSGD x)
    | TISGD => let? x := de_f64 v in dret (LISGD x)
    | TMomentum => let? s := de_momentum v in dret (LMomentum s)
    | TNAG => let? s := de_momentum v in dret (LNAG s)
    | TAdagrad => let? s := de_adagrad v in dret (LAdagrad s)
    | TAdam => let? s := de_adam v in dret (LAdam s)
    | TAdaMax => let? s := de_adamax v in dret (LAdaMax s)
    end.

  (** ** Kernels *)

  Inductive kernel_type := TExponential | TMatern32 | TMatern52 | TExpQuad | TCosine | TRationalQuadratic.
  Definition type_of_kernel (k : kernel F) : kernel_type :=
    match k_kind k with
    | KExponential => TExponential | KMatern32 => TMatern32 | KMatern52 => TMatern52
    | KExpQuad => TExpQuad | KCosine => TCosine | KRationalQuadratic _ => TRationalQuadratic
    end.

  (** stationary.rs:10-13, rational_quadratic.rs:7-12. *)
  Definition ser_kernel (sh : shape) (k : kernel F) : value :=
    ser_struct sh ([("variance", VFloat (k_variance k)); ("lengthscales", ser_floats (k_lengthscales k))] ++
      match k_kind k with KRationalQuadratic p => [("power", VFloat p)] | _ => [] end).
  Definition de_stationary (kind : kernel_kind F) : dec (kernel F) :=
    de_struct [MkField "variance" _ de_f64; MkField "lengthscales" _ (de_vec de_f64)]
      (fun x => let '(a, (b, _)) := x in MkKernel kind a b).
  Definition de_rational : dec (kernel F) :=
    de_struct [MkField "variance" _ de_f64; MkField "lengthscales" _ (de_vec de_f64); MkField "power" _ de_f64]
      (fun x => let '(a, (b, (c, _))) := x in MkKernel (KRationalQuadratic c) a b).
  Definition de_kernel (t : kernel_type) : dec (kernel F) :=
    match t with
    | TExponential => de_stationary KExponential
    | TMatern32 => de_stationary KMatern32
    | TMatern52 => de_stationary KMatern52
    | TExpQuad => de_stationary KExpQuad
    | TCosine => de_stationary KCosine
    | TRationalQuadratic => de_rational
    end.

  (** ** basis/*.rs *)

  (** Implementations outside the crate: hash builders, [spaces::Equipartition]
      and whatever a [Closure] holds. *)
  Record externals := MkExternals {
    x_ser_hasher : hasher -> value; x_de_hasher : dec hasher;
    x_ser_equi : equipartition F -> value; x_de_equi : dec (equipartition F);
    x_ser_map : (list F -> outcome (result (Features F))) -> value;
    x_de_map : dec (list F -> outcome (result (Features F)))
  }.

  (** The type of a basis, fixed by the program that loads it. *)
  Inductive basis_type :=
  | TBias | TFixedDense | TFixedSparse | TFourier | TPolynomial | TChebyshev
  | TKernel (t : kernel_type) | TTile (bld : build) | TGrid | TClosure
  | TStack (t1 t2 : basis_type) | TL0 (t : basis_type) | TL1 (t : basis_type) | TL2 (t : basis_type) | TLinf (t : basis_type).

  (** All prototypes of a kernel basis have kernels of one type. *)
  Fixpoint has_type (t : basis_type) (b : basis F) : Prop :=
    match t, b with
    | TBias, BBias _ | TFixedDense, BFixedDense _ | TFixedSparse, BFixedSparse _ _ | TFourier, BFourier _ _ _
    | TPolynomial, BPolynomial _ _ | TChebyshev, BChebyshev _ _ _ | TGrid, BGrid _ _ | TClosure, BClosure _ _ => True
    | TKernel t, BKernel ps => Forall (fun p => type_of_kernel (p_kernel p) = t) ps
    | TTile bld, BTile bld' _ _ _ => bld = bld'
    | TStack t1 t2, BStack b1 b2 => has_type t1 b1 /\ has_type t2 b2
    | TL0 t, BL0 b | TL1 t, BL1 b | TL2 t, BL2 b | TLinf t, BLinf b => has_type t b
    | _, _ => False
    end.

  Definition ser_limits (l : list (F * F)) : value := VSeq (map (fun p => VSeq [VFloat (fst p); VFloat (snd p)]) l).
  Definition ser_indices (l : list nat) : value := VSeq (map VNat l).

  (** kernelised.rs:13-16. *)
  Definition ser_proto (sh : shape) (p : prototype F) : value :=
    ser_struct sh [("centroid", ser_floats (p_centroid p)); ("kernel", ser_kernel sh (p_kernel p))].
  Definition de_proto (t : kernel_type) : dec (prototype F) :=
    de_struct [MkField "centroid" _ (de_vec de_f64); MkField "kernel" _ (de_kernel t)]
      (fun x => let '(a, (b, _)) := x in MkProto a b).

  (** constant.rs:12, 44; fourier.rs:18-22; polynomial/mod.rs:44-47, 123-129;
      kernelised.rs:35-37; tile_coding.rs:45-50; uniform_grid.rs:12-15
      ([ProductSpace] is a newtype of the list); closure.rs:11-14; stack.rs:12-15;
      normalisation.rs:13, 66, 135, 204. *)
  Fixpoint ser_basis (X : externals) (sh : shape) (b : basis F) : value :=
    match b with
    | BBias c => VFloat c
    | BFixedDense l => ser_floats l
    | BFixedSparse n active => VSeq [VNat n; ser_indices active]
    | BFourier order limits cs => ser_struct sh
        [("order", VNat order); ("limits", ser_limits limits); ("coefficients", VSeq (map ser_floats cs))]
    | BPolynomial order es => ser_struct sh [("order", VNat order); ("exponents", VSeq (map ser_indices es))]
    | BChebyshev order limits _ => ser_struct sh [("order", VNat order); ("limits", ser_limits limits)]
    | BKernel ps => ser_struct sh [("prototypes", VSeq (map (ser_proto sh) ps))]
    | BTile _ h n m => ser_struct sh
        [("hasher_builder", x_ser_hasher X h); ("n_tilings", VNat n); ("memory_size", VNat m)]
    | BGrid n space => ser_struct sh [("n_features", VNat n); ("feature_space", VSeq (map (x_ser_equi X) space))]
    | BClosure n f => ser_struct sh [("n_features", VNat n); ("mapping", x_ser_map X f)]
    | BStack b1 b2 => ser_struct sh [("b1", ser_basis X sh b1); ("b2", ser_basis X sh b2)]
    | BL0 b | BL1 b | BL2 b | BLinf b => ser_basis X sh b
    end.

  (** [Deserialize for Chebyshev], polynomial/mod.rs:248-325, on these values:
      what Serde.v models, each of its two fields seen as that file sees them
      (a value of the wrong type is [WOther], whatever is wrong with it). *)
  Definition wire_of (v : value) : outcome (wire F) :=
    match v with
    | VNat n => Ret (WNum n)
    | _ => match de_vec (de_pair de_f64 de_f64) v with
           | Ret (DeOk l) => Ret (WPairs l)
           | Ret (DeErr _) => Ret WOther
           | Panic => Panic
           end
    end.
  Definition de_chebyshev : dec (basis F) := fun v =>
    match v with
    | VMap m => let* m' := omapM (fun kv => let* w := wire_of (snd kv) in Ret (fst kv, w)) m in visit_map m'
    | VSeq l => let* l' := omapM wire_of l in visit_seq l'
    | _ => dfail InvalidType
    end.

  (** The attribute on [hasher_builder] (tile_coding.rs:46) asks for
      [serde(default)] under a feature "serialize"; the crate has no feature of
      that name (Cargo.toml:20-24), so the field has no default. *)
  Fixpoint de_basis (X : externals) (t : basis_type) : dec (basis F) :=
    match t with
    | TBias => fun v => let? x := de_f64 v in dret (BBias x)
    | TFixedDense => fun v => let? l := de_vec de_f64 v in dret (BFixedDense l)
    | TFixedSparse => fun v => let? p := de_pair de_usize de_hset v in dret (BFixedSparse (fst p) (snd p))
    | TFourier => de_struct [MkField "order" _ de_byte; MkField "limits" _ (de_vec (de_pair de_f64 de_f64));
                             MkField "coefficients" _ (de_vec (de_vec de_f64))]
                    (fun x => let '(a, (b, (c, _))) := x in BFourier a b c)
    | TPolynomial => de_struct [MkField "order" _ de_byte; MkField "exponents" _ (de_vec (de_vec de_byte))]
                       (fun x => let '(a, (b, _)) := x in BPolynomial a b)
    | TChebyshev => de_chebyshev
    | TKernel t => de_struct [MkField "prototypes" _ (de_vec (de_proto t))] (fun x => BKernel (fst x))
    | TTile bld => de_struct [MkField "hasher_builder" _ (x_de_hasher X); MkField "n_tilings" _ de_usize;
                              MkField "memory_size" _ de_usize]
                     (fun x => let '(a, (b, (c, _))) := x in BTile bld a b c)
    | TGrid => de_struct [MkField "n_features" _ de_usize; MkField "feature_space" _ (de_vec (x_de_equi X))]
                 (fun x => let '(a, (b, _)) := x in BGrid a b)
    | TClosure => de_struct [MkField "n_features" _ de_usize; MkField "mapping" _ (x_de_map X)]
                    (fun x => let '(a, (b, _)) := x in BClosure a b)
    | TStack t1 t2 => de_struct [MkField "b1" _ (de_basis X t1); MkField "b2" _ (de_basis X t2)]
                        (fun x => let '(a, (b, _)) := x in BStack a b)
    | TL0 t => fun v => let? b := de_basis X t v in dret (BL0 b)
    | TL1 t => fun v => let? b := de_basis X t v in dret (BL1 b)
    | TL2 t => fun v => let? b := de_basis X t v in dret (BL2 b)
    | TLinf t => fun v => let? b := de_basis X t v in dret (BLinf b)
    end.

  (** ** lib.rs:91-100, with the bases and optimisers of the library *)

  Record saved (W : Type) := MkSaved { sv_basis : basis F; sv_weights : W; sv_optimiser : lib_opt F }.
  Arguments MkSaved {W}. Arguments sv_basis {W}. Arguments sv_weights {W}. Arguments sv_optimiser {W}.

  Definition ser_lfa {W} (ser_w : shape -> W -> value) (X : externals) (sh : shape) (a : saved W) : value :=
    ser_struct sh [("basis", ser_basis X sh (sv_basis a)); ("weights", ser_w sh (sv_weights a));
                   ("optimiser", ser_opt sh (sv_optimiser a))].
  Definition de_lfa {W} (de_w : dec W) (X : externals) (t : basis_type) (o : opt_type) : dec (saved W) :=
    de_struct [MkField "basis" _ (de_basis X t); MkField "weights" _ de_w; MkField "optimiser" _ (de_opt o)]
      (fun x => let '(a, (b, (c, _))) := x in MkSaved a b c).

  (** [ScalarLFA] and [VectorLFA] (lib.rs:78, 81). *)
  Definition ser_scalar := ser_lfa ser_array1.
  Definition de_scalar := de_lfa de_array1.
  Definition ser_vector := ser_lfa ser_array2.
  Definition de_vector := de_lfa de_array2.
End Derive.
Arguments MkSaved {F W}. Arguments sv_basis {F W}. Arguments sv_weights {F W}. Arguments sv_optimiser {F W}.
Arguments field_de F : clear implicits.
Arguments externals F : clear implicits.
Arguments saved F W : clear implicits.
