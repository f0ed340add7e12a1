(** The sign of a zero: what [==] on f64 cannot tell apart (C76). *)
From Coq Require Import List Arith ZArith Lia Bool Reals.
From Flocq Require Import Core.Core IEEE754.BinarySingleNaN.
From Verif Require Import Base Scalar ScalarF64 HMap NdArray Features FeatureFacts Coeffs Kernels TileCoding Basis
  Optim Lfa F64Facts.
Import ListNotations.
Local Open Scope nat_scope.

(** Equal, or zeros of either sign. *)
Inductive sim : f64 -> f64 -> Prop :=
| sim_refl x : sim x x
| sim_zero s t : sim (B754_zero s) (B754_zero t).
#[global] Hint Constructors sim : core.

Lemma sim_sym x y : sim x y -> sim y x.
Proof. intros []; auto. Qed.

Lemma sim_eqb x y : Beqb x y = true <-> sim x y /\ b_is_nan x = false.
Proof.
  split.
  - intros E. split.
    + destruct (b_eqb_true x y E) as [(Fx & Fy & Q)|(s & -> & ->)]; auto.
      destruct x as [s| | |s m e H], y as [t| | |t m' e' H']; try discriminate; auto.
      * exfalso. symmetry in Q. simpl in Q. apply eq_0_F2R in Q. destruct t; discriminate.
      * exfalso. simpl in Q. apply eq_0_F2R in Q. destruct s; discriminate.
      * apply B2R_inj in Q; [rewrite Q; auto|reflexivity|reflexivity].
    + destruct x, y; try reflexivity; discriminate.
  - intros [[z|s t] N]; [rewrite b_eqb_refl, N; reflexivity|reflexivity].
Qed.

(** ** the operations *)

Ltac zeros := repeat match goal with H : sim _ _ |- _ => destruct H end; auto.

Lemma sim_add x x' y y' : sim x x' -> sim y y' -> sim (b_add x y) (b_add x' y').
Proof.
  intros A B. destruct A as [x|s t], B as [y|s' t']; auto.
  - destruct x as [u|u| |u m e H]; try apply sim_refl. unfold b_add; simpl. destruct u, s', t'; simpl; auto.
  - destruct y as [u|u| |u m e H]; try apply sim_refl. unfold b_add; simpl. destruct u, s, t; simpl; auto.
  - unfold b_add; simpl. destruct s, t, s', t'; simpl; auto.
Qed.

Lemma sim_sub x x' y y' : sim x x' -> sim y y' -> sim (b_sub x y) (b_sub x' y').
Proof.
  intros A B. destruct A as [x|s t], B as [y|s' t']; auto.
  - destruct x as [u|u| |u m e H]; try apply sim_refl. unfold b_sub; simpl. destruct u, s', t'; simpl; auto.
  - destruct y as [u|u| |u m e H]; try apply sim_refl. unfold b_sub; simpl. destruct u, s, t; simpl; auto.
  - unfold b_sub; simpl. destruct s, t, s', t'; simpl; auto.
Qed.

Lemma sim_mul x x' y y' : sim x x' -> sim y y' -> sim (b_mul x y) (b_mul x' y').
Proof.
  intros A B. destruct A as [x|s t], B as [y|s' t']; auto.
  - destruct x as [u|u| |u m e H]; simpl; auto.
  - destruct y as [u|u| |u m e H]; simpl; auto.
  - simpl. auto.
Qed.

Lemma sim_div x x' y : sim x x' -> sim (b_div x y) (b_div x' y).
Proof. intros [x0|s t]; auto. destruct y as [u|u| |u m e H]; simpl; auto. Qed.

Lemma sim_sqrt x y : sim x y -> sim (b_sqrt x) (b_sqrt y).
Proof. intros []; auto. simpl. auto. Qed.

Lemma sim_neg x y : sim x y -> sim (Bopp x) (Bopp y).
Proof. intros []; auto. simpl. auto. Qed.

Lemma sim_abs x y : sim x y -> Babs x = Babs y.
Proof. intros []; reflexivity. Qed.

Lemma sim_square x y : sim x y -> b_mul x x = b_mul y y.
Proof. intros [|s t]; auto. simpl. rewrite !xorb_nilpotent. reflexivity. Qed.

Lemma sim_ltb x x' y y' : sim x x' -> sim y y' -> Bltb x y = Bltb x' y'.
Proof.
  intros A B. destruct A as [x|s t], B as [y|s' t']; auto; try reflexivity.
Qed.

Lemma sim_max x x' y y' : sim x x' -> sim y y' -> sim (b_max x y) (b_max x' y').
Proof.
  intros A B. pose proof (sim_ltb x x' y y' A B) as L.
  destruct A as [x|s t], B as [y|s' t']; auto; unfold b_max.
  - rewrite L. destruct x as [u|u| |u m e H]; auto; destruct (Bltb _ (B754_zero t')); auto.
  - rewrite L. destruct y as [u|u| |u m e H]; auto; destruct (Bltb (B754_zero t) _); auto.
  - rewrite L. destruct (Bltb (B754_zero t) _); auto.
Qed.

Lemma sim_floor x y : sim x y -> b_floor_isize x = b_floor_isize y.
Proof. intros []; reflexivity. Qed.

(** Adding to something other than zero forgets the sign. *)
Definition nonzero (x : f64) : Prop := match x with B754_zero _ => False | _ => True end.

Lemma sim_nonzero x y : sim x y -> nonzero x -> x = y.
Proof. intros [|s t] N; [reflexivity|destruct N]. Qed.

Lemma add_nonzero x y y' : nonzero x -> sim y y' -> b_add x y = b_add x y'.
Proof. intros N [|s t]; auto. destruct x; try reflexivity. destruct N. Qed.

Lemma add_nonzero_r x y y' : nonzero x -> sim y y' -> b_add y x = b_add y' x.
Proof. intros N [|s t]; auto. destruct x; try reflexivity. destruct N. Qed.

Lemma sub_nonzero x y y' : nonzero x -> sim y y' -> b_sub x y = b_sub x y'.
Proof. intros N [|s t]; auto. destruct x; try reflexivity. destruct N. Qed.

(** ** lifting to data *)

Definition orel {A B} (Q : A -> B -> Prop) (x : outcome A) (y : outcome B) : Prop :=
  match x, y with Ret a, Ret b => Q a b | Panic, Panic => True | _, _ => False end.

Definition rrel {A B} (Q : A -> B -> Prop) (x : result A) (y : result B) : Prop :=
  match x, y with Ok a, Ok b => Q a b | Err e, Err e' => e = e' | _, _ => False end.

Definition lsim : list f64 -> list f64 -> Prop := Forall2 sim.
Definition esim (a b : nat * f64) : Prop := fst a = fst b /\ sim (snd a) (snd b).
Definition msim : hmap f64 -> hmap f64 -> Prop := Forall2 esim.

(** Features that agree up to the sign of zeros, stored in the same way. *)
Definition fsim (phi psi : Features f64) : Prop :=
  match phi, psi with
  | Dense a, Dense b => lsim a b
  | Sparse a, Sparse b => sa_dim a = sa_dim b /\ msim (sa_acts a) (sa_acts b)
  | _, _ => False
  end.

Lemma lsim_refl l : lsim l l.
Proof. induction l; constructor; auto. Qed.

Lemma msim_refl m : msim m m.
Proof. induction m; constructor; auto. split; auto. Qed.

Lemma fsim_refl phi : fsim phi phi.
Proof. destruct phi; simpl; auto using lsim_refl, msim_refl. Qed.
#[global] Hint Resolve lsim_refl msim_refl fsim_refl : core.

Lemma bind_rel {A B A' B'} (Q : A -> A' -> Prop) (Q' : B -> B' -> Prop) x x' f f' :
  orel Q x x' -> (forall a a', Q a a' -> orel Q' (f a) (f' a')) -> orel Q' (obind x f) (obind x' f').
Proof. destruct x, x'; simpl; intros A0 H; auto; contradiction. Qed.

Lemma rmap_rel {A B A' B'} (Q : A -> A' -> Prop) (Q' : B -> B' -> Prop) x x' f f' :
  rrel Q x x' -> (forall a a', Q a a' -> orel Q' (f a) (f' a')) -> orel (rrel Q') (rmap f x) (rmap f' x').
Proof.
  destruct x, x'; simpl; intros A0 H; auto; try contradiction.
  eapply bind_rel; [apply H, A0|]. intros b b' Hb. exact Hb.
Qed.

Lemma fold_rel {A A' B B'} (Q : A -> A' -> Prop) (S : B -> B' -> Prop) f f' : forall l l', Forall2 Q l l' ->
  (forall b b' a a', S b b' -> Q a a' -> S (f b a) (f' b' a')) ->
  forall b b', S b b' -> S (fold_left f l b) (fold_left f' l' b').
Proof. induction 1; simpl; intros F b b' Hb; auto. Qed.

Lemma ofold_rel {A A' B B'} (Q : A -> A' -> Prop) (S : B -> B' -> Prop) f f' : forall l l', Forall2 Q l l' ->
  (forall b b' a a', S b b' -> Q a a' -> orel S (f b a) (f' b' a')) ->
  forall b b', S b b' -> orel S (ofold f l b) (ofold f' l' b').
Proof. induction 1; simpl; intros F b b' Hb; auto. eapply bind_rel; [now apply F|]. intros; auto. Qed.

Lemma map_rel {A A' B B'} (Q : A -> A' -> Prop) (S : B -> B' -> Prop) f f' l l' : Forall2 Q l l' ->
  (forall a a', Q a a' -> S (f a) (f' a')) -> Forall2 S (map f l) (map f' l').
Proof. induction 1; simpl; intros F; constructor; auto. Qed.

Lemma map2_rel {A A' B B' C C'} (Q : A -> A' -> Prop) (S : B -> B' -> Prop) (T : C -> C' -> Prop) f f' :
  forall l l' m m', Forall2 Q l l' -> Forall2 S m m' ->
  (forall a a' b b', Q a a' -> S b b' -> T (f a b) (f' a' b')) -> Forall2 T (map2 f l m) (map2 f' l' m').
Proof.
  intros l l' m m' L. revert m m'. induction L; intros m m' M F; simpl; [constructor|].
  destruct M; constructor; auto.
Qed.

Lemma combine_rel {A A' B B'} (Q : A -> A' -> Prop) (S : B -> B' -> Prop) : forall l l' m m', Forall2 Q l l' -> Forall2 S m m' ->
  Forall2 (fun a b => Q (fst a) (fst b) /\ S (snd a) (snd b)) (combine l m) (combine l' m').
Proof.
  intros l l' m m' L. revert m m'. induction L; intros m m' M; simpl; [constructor|]. destruct M; constructor; auto.
Qed.

Lemma omapM_rel {A A' B B'} (Q : A -> A' -> Prop) (S : B -> B' -> Prop) f f' : forall l l', Forall2 Q l l' ->
  (forall a a', Q a a' -> orel S (f a) (f' a')) -> orel (Forall2 S) (omapM f l) (omapM f' l').
Proof.
  induction 1; simpl; intros F; [constructor|]. eapply bind_rel; [now apply F|]. intros b b' Hb.
  eapply bind_rel; [now apply IHForall2|]. intros bs bs' Hbs. simpl. constructor; auto.
Qed.

Lemma len_rel {A B} (Q : A -> B -> Prop) l l' : Forall2 Q l l' -> length l = length l'.
Proof. induction 1; simpl; auto. Qed.

Lemma eq_rel {A} (l : list A) : Forall2 eq l l.
Proof. induction l; constructor; auto. Qed.

Lemma nth_error_rel {A A'} (Q : A -> A' -> Prop) l l' i : Forall2 Q l l' ->
  match nth_error l i, nth_error l' i with Some a, Some b => Q a b | None, None => True | _, _ => False end.
Proof. intros L. revert i. induction L; intros [|i]; simpl; auto. apply IHL. Qed.

Lemma vget_rel l l' i : lsim l l' -> orel sim (vget l i) (vget l' i).
Proof.
  intros L. unfold vget. pose proof (nth_error_rel sim l l' i L) as H.
  destruct (nth_error l i), (nth_error l' i); simpl; auto.
Qed.

Lemma vupd_rel l l' i f f' : lsim l l' -> (forall a a', sim a a' -> sim (f a) (f' a')) ->
  orel lsim (vupd l i f) (vupd l' i f').
Proof.
  intros L F. revert i. induction L; intros i; [exact I|]. destruct i; simpl; [constructor; auto|].
  eapply bind_rel; [apply IHL|]. intros r r' Hr. simpl. constructor; auto.
Qed.

Lemma vset_rel l l' i v v' : lsim l l' -> sim v v' -> orel lsim (vset l i v) (vset l' i v').
Proof. intros L V. apply vupd_rel; auto. Qed.

Lemma broadcast_rel l l' n : lsim l l' -> orel lsim (broadcast l n) (broadcast l' n).
Proof.
  intros L. unfold broadcast. rewrite (len_rel _ _ _ L). destruct (length l' =? n); [exact L|].
  destruct L as [|a b l l' Hab L]; [exact I|]. destruct L; [|exact I]. simpl. induction n; constructor; auto.
Qed.

Lemma zip_rel l l' m m' f f' : lsim l l' -> lsim m m' ->
  (forall a a' b b', sim a a' -> sim b b' -> sim (f a b) (f' a' b')) ->
  orel lsim (zip_mut_with f l m) (zip_mut_with f' l' m').
Proof.
  intros L M F. unfold zip_mut_with. rewrite <- (len_rel _ _ _ L). eapply bind_rel; [now apply broadcast_rel|].
  intros r r' Hr. simpl. eapply map2_rel; eauto.
Qed.

Lemma values_rel m m' : msim m m' -> lsim (hm_values m) (hm_values m').
Proof. intros M. unfold hm_values. eapply map_rel; [exact M|]. now intros a b [_ V]. Qed.

Lemma hm_get_rel m m' i : msim m m' ->
  match hm_get m i, hm_get m' i with Some a, Some b => sim a b | None, None => True | _, _ => False end.
Proof.
  induction 1 as [|[k v] [k' v'] m m' [E V] M IH]; simpl; auto. simpl in E, V. subst k'. destruct (k =? i); auto.
Qed.

Lemma get_or_zero_rel P m m' i : msim m m' -> sim (@get_or_zero f64 (ScalarF64 P) m i) (@get_or_zero f64 (ScalarF64 P) m' i).
Proof. intros M. unfold get_or_zero. pose proof (hm_get_rel m m' i M). destruct (hm_get m i), (hm_get m' i); auto; contradiction. Qed.

Lemma hm_insert_rel m m' i v v' : msim m m' -> sim v v' -> msim (hm_insert m i v) (hm_insert m' i v').
Proof.
  induction 1 as [|[k w] [k' w'] m m' [E V] M IH]; simpl; intros Hv; [constructor; [split; auto|constructor]|].
  simpl in E, V. subst k'. destruct (k =? i); constructor; auto; try (split; auto). now apply IH.
Qed.

Lemma insert_all_rel l l' m m' d : msim l l' -> msim m m' ->
  msim (fold_left (fun m kv => hm_insert m (fst kv + d) (snd kv)) l m)
       (fold_left (fun m kv => hm_insert m (fst kv + d) (snd kv)) l' m').
Proof.
  intros L M. refine (fold_rel esim msim _ _ _ _ L _ _ _ M). intros b b' a a' B [E V]. rewrite <- E. now apply hm_insert_rel.
Qed.

Lemma collect_rel l l' : msim l l' -> msim (hm_collect l) (hm_collect l').
Proof.
  intros L. unfold hm_collect. refine (fold_rel esim msim _ _ _ _ L _ _ _ (msim_refl [])).
  intros b b' a a' B [E V]. rewrite <- E. now apply hm_insert_rel.
Qed.

(** ** optimisers *)

#[local] Arguments EPS {F H} : simpl never.
#[local] Arguments fone {F H} : simpl never.
#[local] Arguments fzero {F H} : simpl never.
#[local] Opaque b_add b_sub b_mul b_div b_sqrt b_max b_dyadic.

(** libm, [powi] and ndarray's sums cannot tell zeros apart either. *)
Definition zero_blind (P : Platform) : Prop :=
  (forall x y, sim x y -> sim (p_cos P x) (p_cos P y)) /\
  (forall x y, sim x y -> sim (p_exp P x) (p_exp P y)) /\
  (forall x y, sim x y -> sim (p_ln1p P x) (p_ln1p P y)) /\
  (forall x y n, sim x y -> sim (p_powi P x n) (p_powi P y n)) /\
  (forall l l', Forall2 sim l l' -> sim (p_sum P l) (p_sum P l')) /\
  (forall a a' b b', Forall2 sim a a' -> Forall2 sim b b' -> sim (p_dot P a b) (p_dot P a' b')).

Definition momentum_sim (s t : momentum_state f64) : Prop :=
  sim (mo_momentum s) (mo_momentum t) /\ sim (mo_lr s) (mo_lr t) /\ lsim (mo_velocity s) (mo_velocity t).
Definition adagrad_sim (s t : adagrad_state f64) : Prop :=
  sim (ag_lr s) (ag_lr t) /\ lsim (ag_acc s) (ag_acc t).
Definition adam_sim (s t : adam_state f64) : Prop :=
  sim (ad_beta1 s) (ad_beta1 t) /\ sim (ad_beta1_prod s) (ad_beta1_prod t) /\ sim (ad_beta2 s) (ad_beta2 t) /\
  sim (ad_beta2_prod s) (ad_beta2_prod t) /\ sim (ad_lr s) (ad_lr t) /\
  lsim (ad_exp_avg s) (ad_exp_avg t) /\ lsim (ad_exp_avg_sq s) (ad_exp_avg_sq t).
Definition adamax_sim (s t : adamax_state f64) : Prop :=
  sim (am_beta1 s) (am_beta1 t) /\ sim (am_beta1_prod s) (am_beta1_prod t) /\ sim (am_beta2 s) (am_beta2 t) /\
  sim (am_lr s) (am_lr t) /\ lsim (am_exp_avg s) (am_exp_avg t) /\ lsim (am_exp_inf s) (am_exp_inf t).

Definition opt_sim (o o' : lib_opt f64) : Prop :=
  match o, o' with
  | LSGD a, LSGD b | LISGD a, LISGD b => sim a b
  | LMomentum s, LMomentum t | LNAG s, LNAG t => momentum_sim s t
  | LAdagrad s, LAdagrad t => adagrad_sim s t
  | LAdam s, LAdam t => adam_sim s t
  | LAdaMax s, LAdaMax t => adamax_sim s t
  | _, _ => False
  end.

Definition step_sim {S} (Q : S -> S -> Prop) (r r' : outcome (S * list f64 * result unit)) : Prop :=
  orel (fun x y => Q (fst (fst x)) (fst (fst y)) /\ lsim (snd (fst x)) (snd (fst y)) /\ snd x = snd y) r r'.

Section Steps.
Context (P : Platform) (B : zero_blind P).
Local Notation FP := (ScalarF64 P).
Local Hint Resolve sim_add sim_sub sim_mul sim_div sim_sqrt sim_neg sim_max : core.

Lemma one_nonzero : nonzero (@fone f64 FP).
Proof. vm_compute. exact I. Qed.

Lemma eps_nonzero : nonzero (@EPS f64 FP).
Proof. vm_compute. exact I. Qed.

Lemma powi_sim x y n : sim x y -> sim (p_powi P x n) (p_powi P y n).
Proof. apply B. Qed.
Local Hint Resolve powi_sim : core.

Lemma mul_assign_sim l l' m m' : lsim l l' -> sim m m' -> lsim (@mul_assign f64 FP l m) (@mul_assign f64 FP l' m').
Proof. intros L M. unfold mul_assign. eapply map_rel; [exact L|]. intros. simpl. auto. Qed.

Lemma scaled_add_sim a a' l l' m m' : sim a a' -> lsim l l' -> lsim m m' ->
  orel lsim (@scaled_add f64 FP a l m) (@scaled_add f64 FP a' l' m').
Proof. intros A L M. unfold scaled_add. apply zip_rel; auto. Qed.

Lemma scaled_addto_sim phi psi a a' w w' : fsim phi psi -> sim a a' -> lsim w w' ->
  orel lsim (@scaled_addto f64 FP phi a w) (@scaled_addto f64 FP psi a' w').
Proof.
  intros F A W. destruct phi as [da|sa], psi as [db|sb]; try contradiction; simpl.
  - now apply scaled_add_sim.
  - destruct F as [_ M]. refine (ofold_rel esim lsim _ _ _ _ M _ _ _ W).
    intros b b' x x' Hb [E V]. rewrite <- E. apply vupd_rel; auto.
Qed.

Lemma fold_features_sim phi psi i i' f f' : fsim phi psi -> sim i i' ->
  (forall a a' x x', sim a a' -> sim x x' -> sim (f a x) (f' a' x')) ->
  sim (@ffold f64 phi i f) (@ffold f64 psi i' f').
Proof.
  intros F Hi H. destruct phi, psi; try contradiction; simpl.
  - refine (fold_rel sim sim _ _ _ _ F _ _ _ Hi). auto.
  - destruct F as [_ M]. refine (fold_rel sim sim _ _ _ _ (values_rel _ _ M) _ _ _ Hi). auto.
Qed.

Lemma isgd_rate_sim lr lr' phi psi : sim lr lr' -> fsim phi psi ->
  sim (@isgd_compute_lr f64 FP lr phi) (@isgd_compute_lr f64 FP lr' psi).
Proof.
  intros L F. unfold isgd_compute_lr. set (n := ffold phi _ _). set (n' := ffold psi _ _).
  assert (N : sim n n'). { apply fold_features_sim; auto. }
  assert (E : b_add (@fone f64 FP) (b_mul lr n) = b_add (@fone f64 FP) (b_mul lr' n')).
  { apply add_nonzero; [apply one_nonzero|]. simpl. auto. }
  simpl in E |- *. rewrite E. apply sim_div. exact L.
Qed.

Lemma velocity_sim m m' v v' phi psi sf sf' : sim m m' -> lsim v v' -> fsim phi psi -> sim sf sf' ->
  orel lsim (@velocity_update f64 FP m v phi sf) (@velocity_update f64 FP m' v' psi sf').
Proof.
  intros M V F S. destruct phi, psi; try contradiction; simpl.
  - apply zip_rel; auto.
  - destruct F as [_ F]. refine (ofold_rel esim lsim _ _ _ _ F _ _ _ (mul_assign_sim _ _ _ _ V M)).
    intros b b' x x' Hb [E X]. rewrite <- E. apply vupd_rel; auto.
Qed.

Lemma momentum_step_sim s t w w' phi psi sf sf' : momentum_sim s t -> lsim w w' -> fsim phi psi -> sim sf sf' ->
  step_sim momentum_sim (@momentum_step_scaled f64 FP s w phi sf) (@momentum_step_scaled f64 FP t w' psi sf').
Proof.
  intros (M & L & V) W F S. unfold momentum_step_scaled, step_sim.
  eapply bind_rel; [now apply velocity_sim|]. intros v v' Hv.
  eapply bind_rel; [now apply scaled_add_sim|]. intros x x' Hx. simpl. splits; auto. unfold momentum_sim; simpl. auto.
Qed.

Lemma nag_step_sim s t w w' phi psi sf sf' : momentum_sim s t -> lsim w w' -> fsim phi psi -> sim sf sf' ->
  step_sim momentum_sim (@nag_step_scaled f64 FP s w phi sf) (@nag_step_scaled f64 FP t w' psi sf').
Proof.
  intros (M & L & V) W F S. unfold nag_step_scaled, step_sim.
  eapply bind_rel; [now apply velocity_sim|]. intros v v' Hv.
  eapply bind_rel; [now apply scaled_add_sim|]. intros x x' Hx.
  eapply bind_rel; [apply scaled_addto_sim; [exact F|exact M|exact Hx]|]. intros y y' Hy. simpl. splits; auto. unfold momentum_sim; simpl. auto.
Qed.

Lemma adagrad_term_sim lr lr' g g' s s' x x' : sim lr lr' -> sim g g' -> sim s s' -> sim x x' ->
  sim (b_add x (b_div (b_mul lr g) (b_add (b_sqrt s) (@EPS f64 FP))))
      (b_add x' (b_div (b_mul lr' g') (b_add (b_sqrt s') (@EPS f64 FP)))).
Proof.
  intros L G S X. assert (E : b_add (b_sqrt s) (@EPS f64 FP) = b_add (b_sqrt s') (@EPS f64 FP)).
  { apply add_nonzero_r; [apply eps_nonzero|]. auto. }
  rewrite E. auto.
Qed.

Lemma adagrad_step_sim s t w w' phi psi sf sf' : adagrad_sim s t -> lsim w w' -> fsim phi psi -> sim sf sf' ->
  step_sim adagrad_sim (@adagrad_step_scaled f64 FP s w phi sf) (@adagrad_step_scaled f64 FP t w' psi sf').
Proof.
  intros (L & A) W F S. unfold adagrad_step_scaled, step_sim.
  apply (bind_rel (fun x y => lsim (fst x) (fst y) /\ lsim (snd x) (snd y))).
  - destruct phi as [da|sa], psi as [db|sb]; try contradiction.
    + simpl. revert db w w' F W A. generalize (ag_acc s), (ag_acc t). intros acc acc' db w w' F. revert acc acc' w w'.
      induction F as [|a b da db Hab F IH]; intros acc acc' w w' W A; simpl; auto.
      destruct W as [|x x' v v' Hx W]; simpl; auto. destruct A as [|c c' ac ac' Hc A]; simpl; [split; [constructor|]; auto|].
      specialize (IH ac ac' v v' W A).
      destruct (@adagrad_dense f64 FP (ag_lr s) sf da v ac), (@adagrad_dense f64 FP (ag_lr t) sf' db v' ac'). simpl in *.
      destruct IH as [I1 I2]. split; constructor; auto.
      apply (adagrad_term_sim (ag_lr s) (ag_lr t) (b_mul a sf) (b_mul b sf')); simpl; auto.
    + destruct F as [_ M]. generalize 0. revert w w' W. induction A as [|c c' acc acc' Hc A IH]; intros w w' W i; simpl; auto.
      pose proof (get_or_zero_rel P _ _ i M) as G.
      eapply bind_rel.
      { apply (vupd_rel w w' i); [exact W|]. intros x x' Hx.
        apply (adagrad_term_sim (ag_lr s) (ag_lr t) (b_mul _ sf) (b_mul _ sf')); simpl; eauto. }
      intros w1 w1' W1. eapply bind_rel; [apply (IH w1 w1' W1 (Datatypes.S i))|].
      intros [w2 s2] [w2' s2'] [H1 H2]. simpl in *. split; auto. constructor; auto.
  - intros [w2 s2] [w2' s2'] [H1 H2]. simpl in *. splits; auto. unfold adagrad_sim; simpl. auto.
Qed.

Lemma adam_coord_sim dec lr lr' b1 b1' b2 b2' p1 p1' p2 p2' sf sf' st st' a a' :
  sim lr lr' -> sim b1 b1' -> sim b2 b2' -> sim p1 p1' -> sim p2 p2' -> sim sf sf' ->
  lsim (fst (fst st)) (fst (fst st')) /\ lsim (snd (fst st)) (snd (fst st')) /\ lsim (snd st) (snd st') -> esim a a' ->
  orel (fun x y => lsim (fst (fst x)) (fst (fst y)) /\ lsim (snd (fst x)) (snd (fst y)) /\ lsim (snd x) (snd y))
    (@adam_coord f64 FP dec lr b1 b2 p1 p2 sf st a) (@adam_coord f64 FP dec lr' b1' b2' p1' p2' sf' st' a').
Proof.
  intros L B1 B2 P1 P2 S. destruct st as [[m1 m2] w], st' as [[m1' m2'] w'], a as [i a], a' as [i' a'].
  cbn [fst snd]. intros (M1 & M2 & W) [E A]. simpl in E, A. subst i'.
  cbn [adam_coord adamax_coord fadd fsub fmul fdiv fsqrt fmax fabs ScalarF64].
  assert (G : sim (b_mul a sf) (b_mul a' sf')) by auto. set (g := b_mul a sf) in *. set (g' := b_mul a' sf') in *.
  assert (E1 : b_sub (@fone f64 FP) p1 = b_sub (@fone f64 FP) p1') by (apply sub_nonzero; auto; apply one_nonzero).
  assert (E2 : b_sub (@fone f64 FP) p2 = b_sub (@fone f64 FP) p2') by (apply sub_nonzero; auto; apply one_nonzero).
  rewrite E1, E2. clear E1 E2.
  eapply bind_rel; [now apply vget_rel|]. intros x1 x1' X1.
  eapply bind_rel; [now apply vget_rel|]. intros x2 x2' X2.
  assert (N1 : sim (b_add (if dec then b_mul b1 x1 else x1) (b_mul (b_sub (@fone f64 FP) b1) g))
                   (b_add (if dec then b_mul b1' x1' else x1') (b_mul (b_sub (@fone f64 FP) b1') g'))).
  { apply sim_add; [destruct dec; auto|]. auto. }
  assert (N2 : sim (b_add (if dec then b_mul b2 x2 else x2) (b_mul (b_mul (b_sub (@fone f64 FP) b2) g) g))
                   (b_add (if dec then b_mul b2' x2' else x2') (b_mul (b_mul (b_sub (@fone f64 FP) b2') g') g'))).
  { apply sim_add; [destruct dec; auto|]. auto. }
  eapply bind_rel; [apply vset_rel; [exact M1|exact N1]|]. intros y1 y1' Y1.
  eapply bind_rel; [apply vset_rel; [exact M2|exact N2]|]. intros y2 y2' Y2.
  eapply bind_rel; [|intros y3 y3' Y3; simpl; splits; [exact Y1|exact Y2|exact Y3]].
  apply vupd_rel; [exact W|]. intros x x' X. apply adagrad_term_sim; auto.
Qed.

Lemma indexed_sim da db : lsim da db -> Forall2 esim (indexed da) (indexed db).
Proof.
  intros L. unfold indexed. rewrite (len_rel _ _ _ L). generalize 0. induction L; intros i; simpl; constructor; auto. split; auto.
Qed.

Lemma adam_step_sim s t w w' phi psi sf sf' : adam_sim s t -> lsim w w' -> fsim phi psi -> sim sf sf' ->
  step_sim adam_sim (@adam_step_scaled f64 FP s w phi sf) (@adam_step_scaled f64 FP t w' psi sf').
Proof.
  intros (B1 & P1 & B2 & P2 & L & M1 & M2) W F S. unfold adam_step_scaled, step_sim.
  apply (bind_rel (fun x y => lsim (fst (fst x)) (fst (fst y)) /\ lsim (snd (fst x)) (snd (fst y)) /\ lsim (snd x) (snd y))).
  - destruct phi as [da|sa], psi as [db|sb]; try contradiction.
    + refine (ofold_rel esim _ _ _ _ _ (indexed_sim _ _ F) _ _ _ _); [|simpl; auto].
      intros st st' a a' St Ha. apply adam_coord_sim; simpl; auto.
    + destruct F as [_ M]. refine (ofold_rel esim _ _ _ _ _ M _ _ _ _); [|simpl; auto using mul_assign_sim].
      intros st st' a a' St Ha. apply adam_coord_sim; simpl; auto.
  - intros [[x1 x2] x3] [[y1 y2] y3] (H1 & H2 & H3). simpl in *. splits; auto. unfold adam_sim; simpl. splits; auto.
Qed.

Lemma adamax_coord_sim dec lr lr' b1 b1' b2 b2' p1 p1' sf sf' st st' a a' :
  sim lr lr' -> sim b1 b1' -> sim b2 b2' -> sim p1 p1' -> sim sf sf' ->
  lsim (fst (fst st)) (fst (fst st')) /\ lsim (snd (fst st)) (snd (fst st')) /\ lsim (snd st) (snd st') -> esim a a' ->
  orel (fun x y => lsim (fst (fst x)) (fst (fst y)) /\ lsim (snd (fst x)) (snd (fst y)) /\ lsim (snd x) (snd y))
    (@adamax_coord f64 FP dec lr b1 b2 p1 sf st a) (@adamax_coord f64 FP dec lr' b1' b2' p1' sf' st' a').
Proof.
  intros L B1 B2 P1 S. destruct st as [[m1 m2] w], st' as [[m1' m2'] w'], a as [i a], a' as [i' a'].
  cbn [fst snd]. intros (M1 & M2 & W) [E A]. simpl in E, A. subst i'.
  cbn [adam_coord adamax_coord fadd fsub fmul fdiv fsqrt fmax fabs ScalarF64].
  assert (G : sim (b_mul a sf) (b_mul a' sf')) by auto. set (g := b_mul a sf) in *. set (g' := b_mul a' sf') in *.
  assert (E1 : b_sub (@fone f64 FP) p1 = b_sub (@fone f64 FP) p1') by (apply sub_nonzero; auto; apply one_nonzero).
  rewrite E1, (sim_abs g g' G). clear E1.
  eapply bind_rel; [now apply vget_rel|]. intros x1 x1' X1.
  eapply bind_rel; [now apply vget_rel|]. intros x2 x2' X2.
  assert (N1 : sim (b_add (if dec then b_mul b1 x1 else x1) (b_mul (b_sub (@fone f64 FP) b1) g))
                   (b_add (if dec then b_mul b1' x1' else x1') (b_mul (b_sub (@fone f64 FP) b1') g'))).
  { apply sim_add; [destruct dec; auto|]. auto. }
  assert (N2 : sim (b_max (if dec then b_mul b2 x2 else x2) (Babs g')) (b_max (if dec then b_mul b2' x2' else x2') (Babs g'))).
  { apply sim_max; [destruct dec; auto|]. auto. }
  eapply bind_rel; [apply vset_rel; [exact M1|exact N1]|]. intros y1 y1' Y1.
  eapply bind_rel; [apply vset_rel; [exact M2|exact N2]|]. intros y2 y2' Y2.
  eapply bind_rel; [|intros y3 y3' Y3; simpl; splits; [exact Y1|exact Y2|exact Y3]].
  apply vupd_rel; [exact W|]. intros x x' X.
  rewrite (add_nonzero_r _ _ _ eps_nonzero N2). auto.
Qed.

Lemma adamax_step_sim s t w w' phi psi sf sf' : adamax_sim s t -> lsim w w' -> fsim phi psi -> sim sf sf' ->
  step_sim adamax_sim (@adamax_step_scaled f64 FP s w phi sf) (@adamax_step_scaled f64 FP t w' psi sf').
Proof.
  intros (B1 & P1 & B2 & L & M1 & M2) W F S. unfold adamax_step_scaled, step_sim.
  apply (bind_rel (fun x y => lsim (fst (fst x)) (fst (fst y)) /\ lsim (snd (fst x)) (snd (fst y)) /\ lsim (snd x) (snd y))).
  - destruct phi as [da|sa], psi as [db|sb]; try contradiction.
    + refine (ofold_rel esim _ _ _ _ _ (indexed_sim _ _ F) _ _ _ _); [|simpl; auto].
      intros st st' a a' St Ha. apply adamax_coord_sim; simpl; auto.
    + destruct F as [_ M]. refine (ofold_rel esim _ _ _ _ _ M _ _ _ _); [|simpl; auto using mul_assign_sim].
      intros st st' a a' St Ha. apply adamax_coord_sim; simpl; auto.
  - intros [[x1 x2] x3] [[y1 y2] y3] (H1 & H2 & H3). simpl in *. splits; auto. unfold adamax_sim; simpl. splits; auto.
Qed.

Lemma lift_sim {S} (Q : S -> S -> Prop) inj r r' : (forall s t, Q s t -> opt_sim (inj s) (inj t)) ->
  step_sim Q r r' -> step_sim opt_sim (@lift_step f64 S inj r) (lift_step inj r').
Proof.
  intros H R. unfold lift_step, step_sim in *. eapply bind_rel; [exact R|].
  intros [[a b] c] [[a' b'] c'] (X & Y & Z). simpl in *. auto.
Qed.

Lemma lr_step_sim lr lr' (a a' : f64) w w' phi psi : sim lr lr' -> sim a a' -> lsim w w' -> fsim phi psi ->
  step_sim sim (let* v := @scaled_addto f64 FP phi a w in Ret (lr, v, Ok tt))
    (let* v := @scaled_addto f64 FP psi a' w' in Ret (lr', v, Ok tt)).
Proof.
  intros L A W F. unfold step_sim. eapply bind_rel; [now apply scaled_addto_sim|]. intros v v' V. simpl. auto.
Qed.

Theorem step_scaled_sim o o' w w' phi psi sf sf' : opt_sim o o' -> lsim w w' -> fsim phi psi -> sim sf sf' ->
  step_sim opt_sim (o_step_scaled (@LibOptimiser f64 FP) o w phi sf) (o_step_scaled (@LibOptimiser f64 FP) o' w' psi sf').
Proof.
  intros O W F S. destruct o, o'; try contradiction; simpl in O; cbn [o_step_scaled LibOptimiser lib_step_scaled].
  - apply (lift_sim sim); auto. apply lr_step_sim; simpl; auto.
  - apply (lift_sim sim); auto. apply lr_step_sim; auto. apply sim_mul; auto. now apply isgd_rate_sim.
  - apply (lift_sim momentum_sim); auto. now apply momentum_step_sim.
  - apply (lift_sim momentum_sim); auto. now apply nag_step_sim.
  - apply (lift_sim adagrad_sim); auto. now apply adagrad_step_sim.
  - apply (lift_sim adam_sim); auto. now apply adam_step_sim.
  - apply (lift_sim adamax_sim); auto. now apply adamax_step_sim.
Qed.

Theorem step_plain_sim o o' w w' phi psi : opt_sim o o' -> lsim w w' -> fsim phi psi ->
  step_sim opt_sim (o_step (@LibOptimiser f64 FP) o w phi) (o_step (@LibOptimiser f64 FP) o' w' psi).
Proof.
  intros O W F. destruct o, o'; try contradiction; simpl in O; cbn [o_step LibOptimiser lib_step].
  - apply (lift_sim sim); auto. apply lr_step_sim; simpl; auto.
  - apply (lift_sim sim); auto. apply lr_step_sim; auto. now apply isgd_rate_sim.
  - apply (lift_sim momentum_sim); auto. now apply momentum_step_sim.
  - apply (lift_sim momentum_sim); auto. now apply nag_step_sim.
  - apply (lift_sim adagrad_sim); auto. now apply adagrad_step_sim.
  - apply (lift_sim adam_sim); auto. now apply adam_step_sim.
  - apply (lift_sim adamax_sim); auto. now apply adamax_step_sim.
Qed.

Lemma fill_sim l l' : lsim l l' -> lsim (@fill_zero f64 FP l) (@fill_zero f64 FP l').
Proof. intros L. unfold fill_zero. eapply map_rel; [exact L|]. auto. Qed.

Theorem reset_sim o o' : opt_sim o o' -> opt_sim (o_reset (@LibOptimiser f64 FP) o) (o_reset (@LibOptimiser f64 FP) o').
Proof.
  intros O. destruct o, o'; try contradiction; simpl in *; auto; unfold momentum_sim, adagrad_sim, adam_sim, adamax_sim in *; simpl;
    repeat match goal with H : _ /\ _ |- _ => destruct H end; splits; auto using fill_sim.
Qed.

(** ** feature vectors *)

Lemma zeros_sim n : lsim (@zeros f64 FP n) (@zeros f64 FP n).
Proof. auto. Qed.

Lemma write_all_sim g g' m m' l l' : (forall x y, sim x y -> sim (g x) (g' y)) -> msim m m' -> lsim l l' ->
  orel lsim (write_all g m l) (write_all g' m' l').
Proof.
  intros G M L. unfold write_all. refine (ofold_rel esim lsim _ _ _ _ M _ _ _ L).
  intros b b' a a' Hb [E V]. rewrite <- E. apply vset_rel; auto.
Qed.

Lemma into_dense_sim phi psi : fsim phi psi -> orel lsim (@into_dense f64 FP phi) (@into_dense f64 FP psi).
Proof.
  intros F. destruct phi, psi; try contradiction; simpl; auto. destruct F as [D M]. rewrite D. apply write_all_sim; auto.
Qed.

Lemma stack_sim f f' g g' : fsim f f' -> fsim g g' -> orel fsim (@stack f64 FP f g) (@stack f64 FP f' g').
Proof.
  intros A G.
  assert (Dn : orel fsim (let* d1 := @into_dense f64 FP f in let* d2 := @into_dense f64 FP g in Ret (Dense (d1 ++ d2)))
                    (let* d1 := @into_dense f64 FP f' in let* d2 := @into_dense f64 FP g' in Ret (Dense (d1 ++ d2)))).
  { eapply bind_rel; [now apply into_dense_sim|]. intros d1 d1' H1.
    eapply bind_rel; [now apply into_dense_sim|]. intros d2 d2' H2. simpl. now apply Forall2_app. }
  destruct f as [a|a], f' as [a'|a']; try contradiction; destruct g as [c|c], g' as [c'|c']; try contradiction; try exact Dn.
  destruct A as [D1 M1], G as [D2 M2]. simpl. rewrite <- D1, <- D2. split; auto. now apply insert_all_rel.
Qed.

Lemma n_active_sim phi psi : fsim phi psi -> @n_active f64 FP phi = @n_active f64 FP psi.
Proof.
  intros F. destruct phi, psi; try contradiction; simpl.
  - induction F as [|a c l l' Hac F IH]; auto. cbn [filter]. rewrite (sim_abs _ _ Hac).
    destruct (Bltb _ (Babs c)); simpl; auto.
  - apply (len_rel esim), F.
Qed.

Lemma mapped_sim g g' m m' : (forall x y, sim x y -> sim (g x) (g' y)) -> msim m m' ->
  msim (hm_collect (map (fun kv => (fst kv, g (snd kv))) m)) (hm_collect (map (fun kv => (fst kv, g' (snd kv))) m')).
Proof.
  intros G M. apply collect_rel. eapply map_rel; [exact M|]. intros a a' [E V]. split; simpl; auto.
Qed.

Lemma repeat_sim x y n : sim x y -> lsim (repeat x n) (repeat y n).
Proof. intros S. induction n; constructor; auto. Qed.

Lemma fmap_into_sim phi psi g g' : fsim phi psi -> (forall x y, sim x y -> sim (g x) (g' y)) ->
  orel fsim (@fmap_into f64 FP phi g) (@fmap_into f64 FP psi g').
Proof.
  intros F G. destruct phi as [a|a], psi as [c|c]; try contradiction; simpl.
  - eapply map_rel; eauto.
  - destruct F as [D M]. rewrite (sim_abs _ _ (G (@fzero f64 FP) (@fzero f64 FP) (sim_refl _))).
    destruct (Bltb _ _); simpl.
    + split; auto. now apply mapped_sim.
    + rewrite D. eapply bind_rel; [apply write_all_sim; [exact G|exact M|]|intros l l' L; exact L]. apply repeat_sim; auto.
Qed.

Lemma l0_sim phi psi : fsim phi psi -> orel fsim (@l0_normalise f64 FP phi) (@l0_normalise f64 FP psi).
Proof. intros F. unfold l0_normalise. rewrite (n_active_sim _ _ F). apply fmap_into_sim; auto. Qed.

Lemma normalise_sim norm phi psi : (forall l l', lsim l l' -> norm l = norm l') -> fsim phi psi ->
  fsim (@normalise_by f64 FP norm phi) (@normalise_by f64 FP norm psi).
Proof.
  intros N F. destruct phi as [a|a], psi as [c|c]; try contradiction; simpl.
  - rewrite (N _ _ F). eapply map_rel; [exact F|]. intros; now apply sim_div.
  - destruct F as [D M]. rewrite (N _ _ (values_rel _ _ M)). split; auto.
    apply (mapped_sim (fun x => b_div x _) (fun x => b_div x _)); auto.
Qed.

Lemma fold_eq_sim {A} (f : A -> f64 -> A) l l' : lsim l l' -> (forall a x y, sim x y -> f a x = f a y) ->
  forall a, fold_left f l a = fold_left f l' a.
Proof. induction 1 as [|x y l l' S L IH]; intros H a; auto. simpl. rewrite (H a x y S). now apply IH. Qed.

Lemma l1_norm_sim l l' : lsim l l' -> @l1_norm f64 FP l = @l1_norm f64 FP l'.
Proof. intros L. apply fold_eq_sim; auto. intros a x y S. simpl. now rewrite (sim_abs _ _ S). Qed.

Lemma l2_norm_sim l l' : lsim l l' -> @l2_norm f64 FP l = @l2_norm f64 FP l'.
Proof.
  intros L. unfold l2_norm. f_equal. apply fold_eq_sim; auto. intros a x y S. simpl. now rewrite (sim_square _ _ S).
Qed.

Lemma linf_norm_sim l l' : lsim l l' -> @linf_norm f64 FP l = @linf_norm f64 FP l'.
Proof. intros L. apply fold_eq_sim; auto. intros a x y S. simpl. now rewrite (sim_abs _ _ S). Qed.

Lemma dot_sim phi psi w w' : fsim phi psi -> lsim w w' -> orel sim (@dot f64 FP phi w) (@dot f64 FP psi w').
Proof.
  intros F W. destruct phi as [a|a], psi as [c|c]; try contradiction; simpl.
  - unfold dot1. rewrite (len_rel _ _ _ F), (len_rel _ _ _ W). destruct (_ =? _); [|exact I]. now apply B.
  - destruct F as [_ M]. unfold dot_sparse. refine (ofold_rel esim sim _ _ _ _ M _ _ _ (sim_refl _)).
    intros x x' e e' X [E V]. rewrite <- E. eapply bind_rel; [now apply vget_rel|]. intros v v' Hv. simpl. auto.
Qed.

(** ** kernels *)

Definition kind_sim (k k' : kernel_kind f64) : Prop :=
  match k, k' with
  | KRationalQuadratic p, KRationalQuadratic p' => sim p p'
  | KExponential, KExponential | KMatern32, KMatern32 | KMatern52, KMatern52 | KExpQuad, KExpQuad | KCosine, KCosine => True
  | _, _ => False
  end.
Definition kernel_sim (k k' : kernel f64) : Prop :=
  kind_sim (k_kind k) (k_kind k') /\ sim (k_variance k) (k_variance k') /\ lsim (k_lengthscales k) (k_lengthscales k').

Lemma stationary_sim k k' r r' : kernel_sim k k' -> sim r r' ->
  sim (@kernel_stationary f64 FP k r) (@kernel_stationary f64 FP k' r').
Proof.
  intros (K & V & _) R. destruct B as (Bc & Be & Bl & _).
  unfold kernel_stationary. destruct (k_kind k), (k_kind k'); try contradiction; cbn [fadd fmul fdiv fsub fneg fexp fcos fln1p fsqrt ScalarF64].
  - auto.
  - auto 10.
  - auto 12.
  - auto 10.
  - auto.
  - auto 12.
Qed.

Transparent b_div b_mul.
(** The lengthscales' sign disappears in the square. *)
Lemma ratio_square d d' l l' : sim d d' -> sim l l' -> b_mul (b_div d l) (b_div d l) = b_mul (b_div d' l') (b_div d' l').
Proof.
  intros D [x|s t].
  - apply sim_square. now apply sim_div.
  - destruct D as [d|u v]; [|reflexivity]. destruct d as [u|u| |u m e H]; try reflexivity; simpl; now rewrite !xorb_nilpotent.
Qed.
Opaque b_div b_mul.

Lemma distance_sim k k' x x' y y' : lsim (k_lengthscales k) (k_lengthscales k') -> lsim x x' -> lsim y y' ->
  @kernel_distance f64 FP k x y = @kernel_distance f64 FP k' x' y'.
Proof.
  intros L X Y. unfold kernel_distance. f_equal.
  assert (Df : lsim (map2 (@fsub f64 FP) x y) (map2 (@fsub f64 FP) x' y')).
  { eapply map2_rel; eauto. }
  revert Df L. generalize (k_lengthscales k), (k_lengthscales k'), (map2 (@fsub f64 FP) x y), (map2 (@fsub f64 FP) x' y').
  intros ls ls' ds ds' Df. generalize (@fzero f64 FP). revert ls ls'.
  induction Df as [|d d' ds ds' D Df IH]; intros ls ls' acc L; [reflexivity|].
  destruct L as [|l l' ls ls' Hl L]; [reflexivity|]. cbn [map2 fold_left].
  cbn [fadd fmul fdiv ScalarF64] in *. rewrite (ratio_square d d' l l' D Hl). now apply IH.
Qed.

Lemma slice_sim k k' x x' y y' : kernel_sim k k' -> lsim x x' -> lsim y y' ->
  sim (@kernel_slice f64 FP k x y) (@kernel_slice f64 FP k' x' y').
Proof.
  intros K X Y. unfold kernel_slice. rewrite (distance_sim k k' x x' y y' (proj2 (proj2 K)) X Y). now apply stationary_sim.
Qed.
End Steps.
