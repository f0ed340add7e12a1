(** The text of an index error determines the index and the dimension. *)
From Coq Require Import List Arith String Ascii DecimalString DecimalNat Lia Bool.
From Verif Require Import Base.
Local Open Scope string_scope.

Fixpoint digits (s : string) : bool :=
  match s with
  | EmptyString => true
  | String c s' => ((48 <=? nat_of_ascii c)%nat && (nat_of_ascii c <=? 57)%nat) && digits s'
  end.

Lemma string_of_uint_digits d : digits (NilEmpty.string_of_uint d) = true.
Proof. induction d; simpl; auto. Qed.

Lemma show_nat_digits n : digits (show_nat n) = true.
Proof. apply string_of_uint_digits. Qed.

Lemma show_nat_inj n m : show_nat n = show_nat m -> n = m.
Proof.
  unfold show_nat. intros E. apply (f_equal NilEmpty.uint_of_string) in E. rewrite !NilEmpty.usu in E.
  inversion E as [Q]. rewrite <- (DecimalNat.Unsigned.of_to n), <- (DecimalNat.Unsigned.of_to m).
  congruence.
Qed.

(** Digits up to the first bracket. *)
Lemma digits_bracket a b s t : digits a = true -> digits b = true ->
  a ++ String ")" s = b ++ String ")" t -> a = b /\ s = t.
Proof.
  revert b. induction a as [|c a IH]; intros [|c' b] Da Db E.
  - simpl in E. inversion E. auto.
  - exfalso. simpl in E. inversion E. subst c'. discriminate Db.
  - exfalso. simpl in E. inversion E. subst c. discriminate Da.
  - cbn [append] in E. inversion E. subst c'. simpl in Da, Db.
    apply andb_true_iff in Da. apply andb_true_iff in Db.
    destruct (IH b) as [-> ->]; intuition.
Qed.

Lemma append_cancel p s t : p ++ s = p ++ t -> s = t.
Proof. induction p as [|c p IH]; simpl; intros E; auto. inversion E. auto. Qed.

Lemma append_assoc' a b c : (a ++ b) ++ c = a ++ (b ++ c).
Proof. induction a; simpl; congruence. Qed.

Theorem index_error_inj i d i' d' : index_error i d = index_error i' d' -> i = i' /\ d = d'.
Proof.
  unfold index_error. intros E. injection E as E.
  change (show_nat i ++ String ")" (" exceeded dimensionality (" ++ show_nat d ++ String ")" " of the projection.")
        = show_nat i' ++ String ")" (" exceeded dimensionality (" ++ show_nat d' ++ String ")" " of the projection.")) in E.
  apply digits_bracket in E; auto using show_nat_digits. destruct E as [Ei E].
  apply append_cancel in E. apply digits_bracket in E; auto using show_nat_digits. destruct E as [Ed _].
  split; apply show_nat_inj; assumption.
Qed.

Lemma append_last (a b : string) c : (a ++ String c EmptyString = b ++ String c EmptyString)%string -> a = b.
Proof.
  revert b. induction a as [|x a IH]; intros [|y b] E; simpl in E; auto.
  - injection E as _ E. destruct b; discriminate.
  - injection E as _ E. destruct a; discriminate.
  - injection E as -> E. f_equal. auto.
Qed.

Lemma error_display_facts :
  (forall e, error_display e = (error_description e ++ String (Ascii.ascii_of_nat 10) EmptyString)%string /\
     error_source e = None) /\
  (forall e e', error_display e = error_display e' <-> err_message e = err_message e') /\
  (forall i d i' d', error_display (index_error i d) = error_display (index_error i' d') <-> i = i' /\ d = d').
Proof.
  assert (D : forall e e', error_display e = error_display e' <-> err_message e = err_message e').
  { intros e e'. split; [apply append_last|]. unfold error_display. intros ->. reflexivity. }
  split; [split; reflexivity|]. split; [exact D|]. intros i d i' d'. split.
  - intros E. apply D in E. apply index_error_inj.
    unfold index_error in *. cbn [err_message] in E. rewrite E. reflexivity.
  - intros [-> ->]. reflexivity.
Qed.
