(** C70: tables in binary64. Proofs are in TableF64.v. *)
From Coq Require Import List Arith ZArith Lia Reals Lra Bool.
From Flocq Require Import Core.Core IEEE754.BinarySingleNaN.
From Verif Require Import Base Scalar ScalarR ScalarF64 F64Facts HMap NdArray VecFacts Features Spec FeatureFacts
  NonnegF64 BoundF64 Optim OptimSpec Lfa LfaSpec Coeffs Kernels TileCoding Basis TileFacts EndToEnd TableF64.
Import ListNotations.
Local Open Scope R_scope.

(** ** C70 *)

(** Whatever the samples and their order, in a uniform grid trained by SGD(1.0)
    each cell holds its last target up to 2^-50 of the largest, and exactly when
    it is the cell's first or the one before was the same. *)
Theorem C70_grid : forall P (space : list (equipartition f64)) h B, let S := ScalarF64 P in
  into_range space -> space <> [] -> B <= bpow radix2 1022 ->
  Forall (fun p => length (fst p) = length space /\ b_finite (snd p) = true /\ Rabs (b_real (snd p)) <= B) h ->
  exists a, s_run SGD (map (fun p => SUpdateWith (fst p) (fun _ v => fsub (snd p) v)) h)
      (scalar (as_basis (grid_new space)) b_one) = Ret a /\
  forall x, length x = length space -> exists v, s_evaluate a x = Ret (Ok v) /\ b_finite v = true /\
    (cell_targets space x h = [] -> b_real v = 0) /\
    (forall y, cell_targets space x h = [y] -> b_real v = b_real y) /\
    (forall ys y, cell_targets space x h = ys ++ [y] -> Rabs (b_real v - b_real y) <= bpow radix2 (-50) * B) /\
    (forall ys y z, cell_targets space x h = ys ++ [y; z] -> b_real y = b_real z -> b_real v = b_real z).
Proof. exact grid_table. Qed.
Print Assumptions C70_grid.

(** The same for every basis that activates one feature at a time. *)
Theorem C70_table : forall P I (b : Basis f64 I) n (ok : I -> Prop) cell h B, let S := ScalarF64 P in
  (forall x, ok x -> (cell x < n)%nat /\ b_project b x = Ret (Ok (Sparse (MkSparse n [(cell x, fone)])))) ->
  b_dim b = n -> B <= bpow radix2 1022 ->
  Forall (fun p => ok (fst p) /\ b_finite (snd p) = true /\ Rabs (b_real (snd p)) <= B) h ->
  exists a, s_run SGD (map (fun p => SUpdateWith (fst p) (fun _ v => fsub (snd p) v)) h) (scalar b b_one) = Ret a /\
  forall x, ok x -> exists v, s_evaluate a x = Ret (Ok v) /\ b_finite v = true /\
    (targets cell (cell x) h = [] -> b_real v = 0) /\
    (forall y, targets cell (cell x) h = [y] -> b_real v = b_real y) /\
    (forall ys y, targets cell (cell x) h = ys ++ [y] -> Rabs (b_real v - b_real y) <= bpow radix2 (-50) * B) /\
    (forall ys y z, targets cell (cell x) h = ys ++ [y; z] -> b_real y = b_real z -> b_real v = b_real z).
Proof. intros P I b n ok cell h B S T. exact (table P b n ok cell T h B). Qed.
Print Assumptions C70_table.

(** A table of one cell. *)
Definition one_cell (P : Platform) : Basis f64 unit :=
  MkBasis 1 (fun _ => Ret (Ok (Sparse (MkSparse 1 [(0%nat, @fone f64 (ScalarF64 P))])))).

(** One update towards a new target may miss it. *)
Theorem C70_once_refuted : forall P, let S := ScalarF64 P in exists (y z : f64) a v,
  s_run SGD (map (fit64 P) [(tt, y); (tt, z)]) (scalar (one_cell P) b_one) = Ret a /\
  s_evaluate a tt = Ret (Ok v) /\ b_finite y = true /\ b_finite z = true /\ Beqb v z = false.
Proof.
  intros P S. exists b_one, (b_dyadic 1 (-60)). do 2 eexists. split; [reflexivity|]. split; [reflexivity|].
  split; [reflexivity|]. split; [reflexivity|]. vm_compute. reflexivity.
Qed.
Print Assumptions C70_once_refuted.

(** Targets near the largest f64: the difference overflows, and after that the
    cell is lost. *)
Definition huge : f64 := b_dyadic (2 ^ 53 - 1) 971.
Theorem C70_overflow_refuted : forall P, let S := ScalarF64 P in exists y z : f64,
  b_finite y = true /\ b_finite z = true /\ forall k, exists a,
  s_run SGD (map (fit64 P) ([(tt, y); (tt, z)] ++ repeat (tt, z) (k + 1))) (scalar (one_cell P) b_one) = Ret a /\
  s_evaluate a tt = Ret (Ok B754_nan).
Proof.
  intros P S. exists (Bopp huge), huge. split; [vm_compute; reflexivity|]. split; [vm_compute; reflexivity|].
  assert (N : forall k, s_run SGD (map (fit64 P) (repeat (tt, huge) k)) (MkLFA (one_cell P) [B754_nan] b_one) =
    Ret (MkLFA (one_cell P) [B754_nan] b_one)).
  { unfold s_run. induction k as [|k IH]; [reflexivity|exact IH]. }
  intros k. exists (MkLFA (one_cell P) [B754_nan] b_one). split; [|vm_compute; reflexivity].
  replace (k + 1)%nat with (Datatypes.S k) by lia.
  change ([(tt, Bopp huge); (tt, huge)] ++ repeat (tt, huge) (Datatypes.S k)) with
    ([(tt, Bopp huge); (tt, huge); (tt, huge)] ++ repeat (tt, huge) k).
  rewrite map_app. unfold s_run. rewrite ofold_app.
  exact (N k).
Qed.
Print Assumptions C70_overflow_refuted.

(** With rate 1/2 the target may never be reached: the weight stops one unit in
    the last place below 1 + 2^-52. *)
Definition half_step (y w : f64) : f64 :=
  b_add w (b_mul (b_mul (b_dyadic 1 (-1)) (b_sub y (b_add b_zero (b_mul w b_one)))) b_one).
Definition above_one : f64 := b_dyadic (2 ^ 52 + 1) (-52).

Lemma half_fit P w : let S := ScalarF64 P in
  s_do SGD (MkLFA (one_cell P) [w] (b_dyadic 1 (-1))) (fit64 P (tt, above_one)) =
  Ret (MkLFA (one_cell P) [half_step above_one w] (b_dyadic 1 (-1))).
Proof.
  intros S. transitivity (Ret (MkLFA (one_cell P) [b_add w (b_mul (b_mul (b_dyadic 1 (-1)) (b_sub above_one
    (b_add (@fzero f64 S) (b_mul w (@fone f64 S))))) (@fone f64 S))] (b_dyadic 1 (-1)))); [reflexivity|].
  unfold S. rewrite fzero_f64, fone_f64. reflexivity.
Qed.

Lemma half_iter k : b_finite (Nat.iter k (half_step above_one) b_zero) = true /\
  Beqb (Nat.iter k (half_step above_one) b_zero) above_one = false.
Proof.
  assert (Fix : Nat.iter 60 (half_step above_one) b_zero = half_step above_one (Nat.iter 60 (half_step above_one) b_zero)).
  { apply B2SF_inj. vm_compute. reflexivity. }
  assert (St : forall j, Nat.iter (j + 60) (half_step above_one) b_zero = Nat.iter 60 (half_step above_one) b_zero).
  { induction j as [|j IH]; [reflexivity|].
    change (half_step above_one (Nat.iter (j + 60) (half_step above_one) b_zero) = Nat.iter 60 (half_step above_one) b_zero). rewrite IH. symmetry. exact Fix. }
  assert (C : forallb (fun j => let w := Nat.iter j (half_step above_one) b_zero in b_finite w && negb (Beqb w above_one)) (seq 0 61) = true)
    by (vm_compute; reflexivity).
  rewrite forallb_forall in C.
  assert (D : forall j, (j <= 60)%nat -> b_finite (Nat.iter j (half_step above_one) b_zero) = true /\
    Beqb (Nat.iter j (half_step above_one) b_zero) above_one = false).
  { intros j L. specialize (C j). cbv zeta in C. apply andb_true_iff in C; [|apply in_seq; lia].
    destruct C as [C1 C2]. apply negb_true_iff in C2. auto. }
  destruct (Nat.le_gt_cases k 60) as [L|L]; [auto|].
  replace k with ((k - 60) + 60)%nat by lia. rewrite St. auto.
Qed.

Theorem C70_half_refuted : forall P, let S := ScalarF64 P in exists y : f64, b_finite y = true /\ forall k, exists a v,
  s_run SGD (repeat (fit64 P (tt, y)) k) (scalar (one_cell P) (b_dyadic 1 (-1))) = Ret a /\
  s_evaluate a tt = Ret (Ok v) /\ b_finite v = true /\ Beqb v y = false.
Proof.
  intros P S. exists above_one. split; [vm_compute; reflexivity|]. intros k.
  assert (E : forall w j, s_run SGD (repeat (fit64 P (tt, above_one)) j) (MkLFA (one_cell P) [w] (b_dyadic 1 (-1))) =
    Ret (MkLFA (one_cell P) [Nat.iter j (half_step above_one) w] (b_dyadic 1 (-1)))).
  { unfold s_run. intros w j. revert w. induction j as [|j IH]; intros w; [reflexivity|].
    cbn [repeat ofold]. pose proof (half_fit P w) as Hf. cbv zeta in Hf. fold S in Hf. rewrite Hf. etransitivity; [exact (IH _)|].
    assert (Q : forall i, Nat.iter i (half_step above_one) (half_step above_one w) = Nat.iter (Datatypes.S i) (half_step above_one) w).
    { induction i as [|i Hi]; [reflexivity|]. change (half_step above_one (Nat.iter i (half_step above_one) (half_step above_one w)) =
        half_step above_one (Nat.iter (Datatypes.S i) (half_step above_one) w)). now rewrite Hi. }
    rewrite Q. reflexivity. }
  exists (MkLFA (one_cell P) [Nat.iter k (half_step above_one) b_zero] (b_dyadic 1 (-1))).
  exists (b_add b_zero (b_mul (Nat.iter k (half_step above_one) b_zero) b_one)). split; [|split; [|split]].
  - exact (E b_zero k).
  - transitivity (Ret (Ok (b_add (@fzero f64 S) (b_mul (Nat.iter k (half_step above_one) b_zero) (@fone f64 S))))); [reflexivity|].
    unfold S. rewrite fzero_f64, fone_f64. reflexivity.
  - rewrite b_mul_one_r. apply zero_add, half_iter.
  - destruct (half_iter k) as [Fw Nw]. rewrite b_mul_one_r. destruct (zero_add _ Fw) as [Fv Ev].
    assert (Fa : b_finite above_one = true) by (vm_compute; reflexivity).
    rewrite (Beqb_correct 53 1024 _ _ Fw Fa) in Nw. rewrite (Beqb_correct 53 1024 _ _ Fv Fa), Ev. exact Nw.
Qed.
Print Assumptions C70_half_refuted.

(** Two axes, three samples in one cell and one in another. *)
Definition bin (k : nat) : equipartition f64 :=
  MkEqui k (fun x => Nat.min (k - 1) (Z.to_nat (b_floor_isize x))) b_one (map (fun i => b_dyadic (Z.of_nat i) 0) (seq 0 k)).
Example C70_case : let d m e := b_dyadic m e in
  let h := [([d 1 0; d 5 (-1)], d 3 0); ([d 0 0; d 0 0], d 7 0); ([d 5 (-2); d 2 0], d 1 (-60)); ([d 1 0; d 2 0], d 1 (-60))]%Z in
  into_range [bin 2; bin 3] /\
  Forall (fun p => length (fst p) = 2%nat /\ b_finite (snd p) = true /\ Rabs (b_real (snd p)) <= 7) h /\
  cell_targets [bin 2; bin 3] [d 1 0; d 2 0]%Z h = ([d 3 0] ++ [d 1 (-60); d 1 (-60)])%Z /\
  cell_targets [bin 2; bin 3] [d 0 0; d 0 0]%Z h = [d 7 0]%Z /\
  cell_targets [bin 2; bin 3] [d 1 0; d 0 0]%Z h = [].
Proof.
  cbv zeta. split; [|split; [|split; [|split]]].
  - intros e v [<-|[<-|[]]]; cbn [bin ep_map_onto ep_n]; lia.
  - assert (B : forall m e, (0 <= m <= 7)%Z -> (-60 <= e <= 0)%Z -> Rabs (IZR m * bpow radix2 e) <= 7).
    { intros m e Lm Le. assert (0 <= IZR m <= 7) by (split; apply IZR_le; lia). assert (P := bpow_gt_0 radix2 e).
      assert (bpow radix2 e <= 1) by (apply (bpow_le radix2 e 0); lia). rewrite Rabs_right by nra. nra. }
    repeat (apply Forall_cons; [split; [reflexivity|split; [reflexivity|cbn [snd]]]|]); [..|apply Forall_nil].
    + replace (b_real (b_dyadic 3 0)) with (IZR 3 * bpow radix2 0) by (vm_compute; lra). apply B; lia.
    + replace (b_real (b_dyadic 7 0)) with (IZR 7 * bpow radix2 0) by (vm_compute; lra). apply B; lia.
    + replace (b_real (b_dyadic 1 (-60))) with (IZR 1 * bpow radix2 (-60)) by (vm_compute; lra). apply B; lia.
    + replace (b_real (b_dyadic 1 (-60))) with (IZR 1 * bpow radix2 (-60)) by (vm_compute; lra). apply B; lia.
  - reflexivity.
  - reflexivity.
  - reflexivity.
Qed.
