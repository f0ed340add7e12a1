(** Facts for C64. *)
From Coq Require Import List Arith ZArith Lia Bool.
From Verif Require Import Base Scalar HMap HMapFacts NdArray VecFacts Features Spec FeatureFacts Lfa Layout.
Import ListNotations.

Section LayoutFacts.
  Context {F : Type} `{Scalar F}.
  Implicit Types (a b : owned1 F) (phi : lfeatures F) (l : list F).

  Definition lf_ok phi : Prop := match phi with LDense a => layout_ok a | LSparse _ => True end.
  Definition lf_standard phi : Prop := match phi with LDense a => standard a | LSparse _ => True end.

  Lemma nth_error_firstn' {A} n (l : list A) : forall k, nth_error (firstn n l) k = if k <? n then nth_error l k else None.
  Proof.
    revert l. induction n as [|n IH]; intros [|x l] [|k]; simpl; auto; [destruct (S k <? S n); reflexivity|].
    rewrite IH. reflexivity.
  Qed.

  Lemma nth_error_skipn' {A} n (l : list A) : forall k, nth_error (skipn n l) k = nth_error l (n + k).
  Proof. revert l. induction n as [|n IH]; intros [|x l] k; simpl; auto. destruct k; reflexivity. Qed.

  Lemma elements_length a : length (elements a) = ow_len a.
  Proof. unfold elements. rewrite map_length. apply seq_length. Qed.

  Lemma elements_nth a k : layout_ok a ->
    nth_error (elements a) k = if k <? ow_len a then nth_error (ow_raw a) (Z.to_nat (ow_pos a k)) else None.
  Proof.
    intros [R _]. unfold elements. rewrite nth_error_map', nth_error_seq. destruct (Nat.ltb_spec k (ow_len a)) as [L|L]; auto.
    simpl. symmetry. apply nth_error_nth'. specialize (R k L). lia.
  Qed.

  Lemma elements_of_vec l : elements (of_vec l) = l.
  Proof.
    apply nth_error_ext. intros k. rewrite elements_nth.
    - cbn [of_vec ow_len ow_raw]. unfold ow_pos. cbn [of_vec ow_start ow_stride].
      replace (Z.to_nat (Z.of_nat 0 + 1 * Z.of_nat k)) with k by lia.
      destruct (Nat.ltb_spec k (length l)); auto. symmetry. apply nth_error_None. lia.
    - split; [|right; simpl; lia]. intros i L. unfold ow_pos. cbn [of_vec ow_start ow_stride ow_len ow_raw] in *. lia.
  Qed.

  Lemma of_vec_ok l : layout_ok (of_vec l) /\ standard (of_vec l).
  Proof.
    split; [|reflexivity]. split; [|right; simpl; lia]. intros i L. unfold ow_pos. cbn [of_vec ow_start ow_stride ow_len ow_raw] in *. lia.
  Qed.

  Lemma standard_ok a : standard a -> layout_ok a.
  Proof. intros ->. apply of_vec_ok. Qed.

  Lemma standard_elements a : standard a -> elements a = ow_raw a.
  Proof. intros E. rewrite E at 1. apply elements_of_vec. Qed.

  Lemma forget_remember (phi : Features F) : forget (remember phi) = phi /\ lf_standard (remember phi).
  Proof. destruct phi; simpl; split; auto; [rewrite elements_of_vec|]; reflexivity. Qed.

  (** ** Slices *)

  Lemma as_slice_elements a : layout_ok a -> ow_len a <= 1 \/ ow_stride a = 1%Z -> as_slice a = Some (elements a).
  Proof.
    intros OK C. unfold as_slice.
    assert (E : (ow_len a <=? 1) || (ow_stride a =? 1)%Z = true).
    { apply orb_true_iff. destruct C; [left; apply Nat.leb_le|right; apply Z.eqb_eq]; auto. }
    rewrite E. f_equal. apply nth_error_ext. intros k. rewrite elements_nth by auto. rewrite nth_error_firstn', nth_error_skipn'.
    destruct (Nat.ltb_spec k (ow_len a)) as [L|L]; auto. f_equal. unfold ow_pos.
    destruct C as [C|C]; [assert (k = 0) by lia; subst k; lia|rewrite C; lia].
  Qed.

  Lemma as_slice_None a : as_slice a = None <-> 1 < ow_len a /\ ow_stride a <> 1%Z.
  Proof.
    unfold as_slice. destruct (Nat.leb_spec (ow_len a) 1); destruct (Z.eqb_spec (ow_stride a) 1); simpl; split; try discriminate; auto; lia.
  Qed.

  (** ** Element-wise operations respect every layout *)

  Lemma ow_upd_elements a k f : layout_ok a -> match ow_upd a k f with
    | Ret a' => vupd (elements a) k f = Ret (elements a') /\ layout_ok a' /\
        ow_start a' = ow_start a /\ ow_stride a' = ow_stride a /\ ow_len a' = ow_len a /\ length (ow_raw a') = length (ow_raw a)
    | Panic => vupd (elements a) k f = Panic
    end.
  Proof.
    intros OK. destruct OK as [R D]. unfold ow_upd. destruct (Nat.ltb_spec k (ow_len a)) as [L|L].
    - pose proof (R k L) as Rk. destruct (vupd_lt f (ow_raw a) (Z.to_nat (ow_pos a k))) as (raw & E & Lr & Nr); [lia|].
      rewrite E. cbn [obind].
      set (a' := MkOwned raw (ow_start a) (ow_stride a) (ow_len a)).
      assert (OK' : layout_ok a').
      { split; [|exact D]. intros i Li. cbn [a' ow_len ow_raw] in *. rewrite Lr. apply R. exact Li. }
      splits; auto. destruct (vupd_lt f (elements a) k) as (l & El & Ll & Nl); [rewrite elements_length; auto|].
      rewrite El. f_equal. apply nth_error_ext. intros i. rewrite Nl, !elements_nth by (auto; split; auto).
      cbn [a' ow_len ow_raw]. change (ow_pos a' i) with (ow_pos a i). rewrite Nr.
      destruct (Nat.ltb_spec i (ow_len a)) as [Li|Li].
      + pose proof (R i Li) as Ri. destruct (Nat.eqb_spec i k) as [->|Ne].
        * rewrite Nat.eqb_refl. reflexivity.
        * destruct (Nat.eqb_spec (Z.to_nat (ow_pos a i)) (Z.to_nat (ow_pos a k))) as [Ep|]; auto. exfalso. apply Ne.
          apply Z2Nat.inj in Ep; [|lia|lia]. unfold ow_pos in Ep. destruct D as [D|D]; [lia|]. nia.
      + destruct (i =? k); reflexivity.
    - apply vupd_ge. rewrite elements_length. exact L.
  Qed.

  Definition same_view a a' : Prop :=
    ow_start a' = ow_start a /\ ow_stride a' = ow_stride a /\ ow_len a' = ow_len a /\ length (ow_raw a') = length (ow_raw a).

  Lemma upd_loop {A} (key : A -> nat) (g : A -> F -> F) : forall (ks : list A) a, layout_ok a ->
    match ofold (fun a x => ow_upd a (key x) (g x)) ks a with
    | Ret a' => ofold (fun l x => vupd l (key x) (g x)) ks (elements a) = Ret (elements a') /\ layout_ok a' /\ same_view a a'
    | Panic => ofold (fun l x => vupd l (key x) (g x)) ks (elements a) = Panic
    end.
  Proof.
    induction ks as [|x ks IH]; intros a OK; cbn [ofold]; [splits; auto; unfold same_view; splits; auto|].
    pose proof (ow_upd_elements a (key x) (g x) OK) as U. destruct (ow_upd a (key x) (g x)) as [a1|]; cbn [obind].
    - destruct U as (E & OK1 & S1 & S2 & S3 & S4). rewrite E. cbn [obind]. specialize (IH a1 OK1).
      destruct (ofold _ ks a1) as [a2|]; auto. destruct IH as (E2 & OK2 & T1 & T2 & T3 & T4). splits; auto. unfold same_view. splits; congruence.
    - rewrite U. reflexivity.
  Qed.

  Lemma in_order_loop {A} (g : A -> F -> F) : forall (ys : list A) l done, length ys = length l ->
    ofold (fun l ky => vupd l (fst ky) (g (snd ky))) (combine (seq (length done) (length l)) ys) (done ++ l) =
      Ret (done ++ map2 (fun x y => g y x) l ys).
  Proof.
    induction ys as [|y ys IH]; intros [|x l] done L; try discriminate; [reflexivity|].
    cbn [length seq combine ofold fst snd map2].
    assert (U : vupd (done ++ x :: l) (length done) (g y) = Ret (done ++ g y x :: l)).
    { clear. induction done as [|z done IH]; simpl; auto. rewrite IH. reflexivity. }
    rewrite U. cbn [obind]. specialize (IH l (done ++ [g y x])). rewrite app_length, <- !app_assoc in IH. simpl in IH.
    rewrite Nat.add_1_r in IH. rewrite IH by (simpl in L; lia). reflexivity.
  Qed.

  Lemma map2_const (f : F -> F) l (ys : list nat) : length ys = length l -> map2 (fun x _ => f x) l ys = map f l.
  Proof. revert ys. induction l as [|x l IH]; intros [|y ys] L; try discriminate; simpl; auto. rewrite IH by (simpl in L; lia). reflexivity. Qed.

  Theorem mapv_into_elements a f : layout_ok a -> exists a', mapv_into a f = Ret a' /\ elements a' = map f (elements a) /\
    layout_ok a' /\ same_view a a'.
  Proof.
    intros OK. unfold mapv_into. pose proof (upd_loop (fun k => k) (fun _ => f) (seq 0 (ow_len a)) a OK) as U. cbn beta in U.
    pose proof (in_order_loop (fun _ : nat => f) (seq 0 (ow_len a)) (elements a) []) as V.
    rewrite seq_length, elements_length in V. specialize (V eq_refl). simpl in V.
    rewrite map2_const in V by (rewrite seq_length, elements_length; reflexivity).
    assert (X : forall n s (l : list F), ofold (fun l ky => vupd l (fst ky) ((fun _ : nat => f) (snd ky))) (combine (seq s n) (seq s n)) l =
      ofold (fun l k => vupd l k f) (seq s n) l).
    { induction n as [|n IH]; intros s l; cbn [seq combine ofold fst snd]; auto. destruct (vupd l s f); cbn [obind]; auto. }
    rewrite X in V. destruct (ofold _ (seq 0 (ow_len a)) a) as [a'|]; [|congruence].
    destruct U as (E & OK' & SV). exists a'. splits; auto; try congruence.
  Qed.

  Theorem mapv_elements a f : layout_ok a -> elements (mapv a f) = map f (elements a) /\ layout_ok (mapv a f).
  Proof.
    intros OK. unfold mapv. destruct (Z.eqb_spec (ow_stride a) (-1)) as [E|E]; [|split; [apply elements_of_vec|apply of_vec_ok]].
    set (l := map f (elements a)).
    assert (O : layout_ok (MkOwned (rev l) (length l - 1) (-1) (length l))).
    { split; [|right; simpl; lia]. intros k L. unfold ow_pos. cbn [ow_start ow_stride ow_len ow_raw] in *. rewrite rev_length. lia. }
    split; auto. apply nth_error_ext. intros k. rewrite elements_nth by auto. unfold ow_pos. cbn [ow_start ow_stride ow_len ow_raw].
    destruct (Nat.ltb_spec k (length l)) as [L|L]; [|symmetry; apply nth_error_None; auto].
    replace (Z.to_nat (Z.of_nat (length l - 1) + -1 * Z.of_nat k)) with (length l - S k) by lia.
    destruct l as [|x0 l0] eqn:El; [simpl in L; lia|]. rewrite <- El in *.
    rewrite (nth_error_nth' (rev l) x0) by (rewrite rev_length; lia). rewrite rev_nth by lia.
    replace (length l - S (length l - S k)) with k by lia. symmetry. apply nth_error_nth'. exact L.
  Qed.

  Theorem ow_zip_elements (f : F -> F -> F) a b : layout_ok a -> match ow_zip_mut_with f a b with
    | Ret a' => zip_mut_with f (elements a) (elements b) = Ret (elements a') /\ layout_ok a' /\ same_view a a'
    | Panic => zip_mut_with f (elements a) (elements b) = Panic
    end.
  Proof.
    intros OK. unfold ow_zip_mut_with, zip_mut_with. rewrite elements_length.
    destruct (broadcast (elements b) (ow_len a)) as [r|] eqn:Br; cbn [obind]; auto.
    assert (Lr : length r = ow_len a).
    { unfold broadcast in Br. destruct (Nat.eqb_spec (length (elements b)) (ow_len a)); [congruence|].
      destruct (elements b) as [|x [|]]; try discriminate. injection Br as <-. apply repeat_length. }
    pose proof (upd_loop fst (fun ky x => f x (snd ky)) (combine (seq 0 (ow_len a)) r) a OK) as U.
    pose proof (in_order_loop (fun y x => f x y) r (elements a) []) as V. rewrite elements_length in V. specialize (V Lr). simpl in V.
    destruct (ofold _ (combine (seq 0 (ow_len a)) r) a) as [a'|].
    - destruct U as (E & OK' & SV). splits; auto. exact (eq_trans (eq_sym V) E).
    - exact (eq_trans (eq_sym V) U).
  Qed.

  Lemma omap_obind {A B C} (g : B -> C) (x : outcome A) (k : A -> outcome B) : omap g (obind x k) = obind x (fun y => omap g (k y)).
  Proof. destruct x; reflexivity. Qed.

  (** The main model, seen through [forget]. *)
  Definition agrees (r : outcome (lfeatures F)) (s : outcome (Features F)) : Prop :=
    match r, s with
    | Ret phi, Ret psi => forget phi = psi /\ lf_ok phi
    | Panic, Panic => True
    | _, _ => False
    end.

  Lemma agrees_remember (s : outcome (Features F)) : agrees (omap remember s) s.
  Proof.
    destruct s as [psi|]; simpl; auto. destruct (forget_remember psi) as [E S]. split; auto. destruct psi; simpl; auto. apply of_vec_ok.
  Qed.

  Theorem layout_elementwise phi phi2 (f : F -> F) (g : F -> F -> F) : lf_ok phi ->
    agrees (l_map phi f) (fmap (forget phi) f) /\
    agrees (l_map_into phi f) (fmap_into (forget phi) f) /\
    agrees (l_merge_into phi phi2 g) (merge_into (forget phi) (forget phi2) g).
  Proof.
    intros OK. destruct phi as [a|sa]; cbn [l_map l_map_into l_merge_into forget lf_ok] in *.
    - splits.
      + cbn [fmap agrees forget lf_ok]. destruct (mapv_elements a f OK) as [-> O]. auto.
      + destruct (mapv_into_elements a f OK) as (a' & -> & E & O & _). cbn [fmap_into omap obind agrees forget lf_ok]. rewrite E. auto.
      + destruct phi2 as [b|sa2]; cbn [forget merge_into].
        * pose proof (ow_zip_elements g a b OK) as Z. destruct (ow_zip_mut_with g a b) as [a'|]; cbn [omap].
          -- destruct Z as (-> & O & _). split; auto.
          -- rewrite Z. exact I.
        * pose proof (upd_loop fst (fun kv x => g x (snd kv)) (sa_acts sa2) a OK) as Z. unfold merge_sparse_into_dense.
          destruct (ofold _ (sa_acts sa2) a) as [a'|]; cbn [omap].
          -- destruct Z as (-> & O & _). split; auto.
          -- rewrite Z. exact I.
    - splits; try apply agrees_remember. destruct phi2 as [b|sa2]; apply agrees_remember.
  Qed.

  (** ** [stack] and [Vec::from] *)

  Theorem layout_stack phi1 phi2 : lf_ok phi1 -> lf_ok phi2 -> l_stack phi1 phi2 =
    match phi1, phi2 with
    | LSparse sa1, LSparse sa2 => omap remember (stack (Sparse sa1) (Sparse sa2))
    | _, _ =>
      let* d1 := match phi1 with LDense a => Ret (ow_raw a) | LSparse sa => into_dense (Sparse sa) end in
      let* d2 := match phi2 with
                 | LDense b => if (1 <? ow_len b) && negb (ow_stride b =? 1)%Z then Panic else Ret (elements b)
                 | LSparse sa => into_dense (Sparse sa) end in
      Ret (LDense (of_vec (d1 ++ d2)))
    end.
  Proof.
    intros O1 O2.
    assert (Sl : forall b, layout_ok b -> as_slice b = if (1 <? ow_len b) && negb (ow_stride b =? 1)%Z then None else Some (elements b)).
    { intros b O. destruct (Nat.ltb_spec 1 (ow_len b)) as [L|L]; cbn [andb]; [destruct (Z.eqb_spec (ow_stride b) 1) as [E|E]; cbn [negb]|].
      - apply as_slice_elements; auto.
      - apply as_slice_None. auto.
      - apply as_slice_elements; auto. }
    assert (Sv : forall l, as_slice (of_vec l) = Some l).
    { intros l. rewrite <- (elements_of_vec l) at 2. apply as_slice_elements; [apply of_vec_ok|right; reflexivity]. }
    destruct phi1 as [a|sa1], phi2 as [b|sa2]; cbn [l_stack l_into_dense lf_ok obind] in *; auto.
    - rewrite (Sl b O2). destruct (_ && _); reflexivity.
    - destruct (into_dense (Sparse sa2)) as [d|]; cbn [obind]; auto. rewrite Sv. reflexivity.
    - destruct (into_dense (Sparse sa1)) as [d|]; cbn [obind]; auto. rewrite (Sl b O2). destruct (_ && _); reflexivity.
  Qed.

  Theorem standard_stack phi1 phi2 : lf_standard phi1 -> lf_standard phi2 ->
    l_stack phi1 phi2 = omap remember (stack (forget phi1) (forget phi2)).
  Proof.
    intros S1 S2. rewrite layout_stack; [|destruct phi1; simpl in *; auto using standard_ok|destruct phi2; simpl in *; auto using standard_ok].
    destruct phi1 as [a|sa1], phi2 as [b|sa2]; cbn [forget lf_standard] in *; auto.
    - unfold stack. cbn [into_dense obind]. rewrite (standard_elements a S1). rewrite S2 at 1 2. cbn [of_vec ow_stride].
      rewrite andb_false_r. reflexivity.
    - unfold stack. cbn [into_dense obind]. rewrite (standard_elements a S1), omap_obind. reflexivity.
    - unfold stack. rewrite !omap_obind. cbn [into_dense]. destruct (write_all _ _ _); cbn [obind]; auto.
      rewrite S2 at 1 2. cbn [of_vec ow_stride]. rewrite andb_false_r. reflexivity.
  Qed.

  Lemma same_view_standard a a' : standard a -> same_view a a' -> standard a'.
  Proof.
    intros S (A & B & C & D). destruct a' as [r s t n]. unfold standard, of_vec. cbn [ow_start ow_stride ow_len ow_raw] in *.
    rewrite S in A, B, C. cbn [of_vec ow_start ow_stride ow_len] in *. congruence.
  Qed.

  Definition all_standard (r : outcome (lfeatures F)) : Prop := match r with Ret phi => lf_standard phi | Panic => True end.

  Lemma remember_standard (s : outcome (Features F)) : all_standard (omap remember s).
  Proof. destruct s as [psi|]; simpl; auto. apply forget_remember. Qed.

  Theorem standard_closed phi phi2 (f : F -> F) (g : F -> F -> F) : lf_standard phi ->
    all_standard (l_map phi f) /\ all_standard (l_map_into phi f) /\ all_standard (l_merge_into phi phi2 g) /\
    (lf_standard phi2 -> all_standard (l_stack phi phi2)).
  Proof.
    intros S. splits.
    4:{ intros S2. rewrite standard_stack by auto. apply remember_standard. }
    all: destruct phi as [a|sa]; cbn [l_map l_map_into l_merge_into lf_standard] in *; try apply remember_standard.
    - cbn [all_standard lf_standard]. unfold mapv. rewrite S at 1. cbn [of_vec ow_stride]. simpl Z.eqb. apply of_vec_ok.
    - destruct (mapv_into_elements a f (standard_ok a S)) as (a' & -> & _ & _ & V). cbn. eapply same_view_standard; eauto.
    - destruct phi2 as [b|sa2].
      + pose proof (ow_zip_elements g a b (standard_ok a S)) as Z. destruct (ow_zip_mut_with g a b); cbn; auto.
        destruct Z as (_ & _ & V). eapply same_view_standard; eauto.
      + pose proof (upd_loop fst (fun kv x => g x (snd kv)) (sa_acts sa2) a (standard_ok a S)) as Z.
        destruct (ofold _ (sa_acts sa2) a); cbn; auto. destruct Z as (_ & _ & V). eapply same_view_standard; eauto.
    - destruct phi2; apply remember_standard.
  Qed.
End LayoutFacts.
