(** Fitting a finite consistent data set again and again, over the reals. Facts
    for C71. *)
From Coq Require Import List Arith Lia Reals Lra Classical.
From Verif Require Import Base Scalar ScalarR HMap NdArray VecFacts Features Spec FeatureFacts
  Optim OptimSpec OptimFacts OptimReal Lfa LfaSpec LfaFacts LfaReal LfaRegret.
Import ListNotations.
Local Open Scope R_scope.

(** ** Cluster points of bounded sequences of lists *)

(** [P] frequently holds together with [u] staying near some [l]. *)
Lemma cluster1 (P : R -> nat -> Prop) (u : nat -> R) B :
  (forall e e' k, 0 < e -> e <= e' -> P e k -> P e' k) ->
  (forall e N, 0 < e -> exists k, (N <= k)%nat /\ P e k) ->
  (forall k, Rabs (u k) <= B) ->
  exists l, forall e N, 0 < e -> exists k, (N <= k)%nat /\ P e k /\ Rabs (u k - l) < e.
Proof.
  intros Mono Freq Bd.
  set (E := fun x => forall e N, 0 < e -> exists k, (N <= k)%nat /\ P e k /\ x <= u k).
  assert (BE : bound E).
  { exists B. intros x Ex. destruct (Ex 1 0%nat Rlt_0_1) as (k & _ & _ & L).
    specialize (Bd k). pose proof (Rle_abs (u k)). pose proof (Rle_abs (- u k)) as Op. rewrite Rabs_Ropp in Op. lra. }
  assert (NE : exists x, E x).
  { exists (- B). intros e N P0. destruct (Freq e N P0) as (k & Nk & Pk). exists k. splits; auto.
    specialize (Bd k). pose proof (Rle_abs (u k)). pose proof (Rle_abs (- u k)) as Op. rewrite Rabs_Ropp in Op. lra. }
  destruct (completeness E BE NE) as [l [Ub Least]]. exists l. intros e N P0.
  assert (Lo : exists x, E x /\ l - e < x).
  { apply NNPP. intros C. assert (l <= l - e); [|lra]. apply Least. intros x Ex.
    apply Rnot_lt_le. intros X. apply C. exists x. auto. }
  destruct Lo as (x & Ex & Lx).
  assert (Hi : exists e0 N0, 0 < e0 /\ forall k, (N0 <= k)%nat -> P e0 k -> u k < l + e / 2).
  { apply NNPP. intros C. assert (E (l + e / 2)).
    - intros e0 N0 Pe. apply NNPP. intros D. apply C. exists e0, N0. split; auto. intros k Nk Pk.
      apply Rnot_le_lt. intros X. apply D. exists k. splits; auto.
    - specialize (Ub _ H). lra. }
  destruct Hi as (e0 & N0 & Pe0 & Hi).
  destruct (Ex (Rmin e e0) (Nat.max N N0)) as (k & Nk & Pk & Lk); [apply Rmin_pos; auto|].
  exists k. splits; [lia| |].
  - apply (Mono (Rmin e e0)); auto; [apply Rmin_pos; auto|apply Rmin_l].
  - assert (Uk : u k < l + e / 2).
    { apply Hi; [lia|]. apply (Mono (Rmin e e0)); auto; [apply Rmin_pos; auto|apply Rmin_r]. }
    apply Rabs_def1; lra.
Qed.

Lemma cluster_list (W : nat -> list R) B n : (forall k i, Rabs (at_ (W k) i) <= B) ->
  exists l, length l = n /\
    forall e N, 0 < e -> exists k, (N <= k)%nat /\ forall i, (i < n)%nat -> Rabs (at_ (W k) i - at_ l i) < e.
Proof.
  intros Bd. induction n as [|n (l & L & C)].
  - exists []. split; auto. intros e N _. exists N. split; auto. intros i X. lia.
  - destruct (cluster1 (fun e k => forall i, (i < n)%nat -> Rabs (at_ (W k) i - at_ l i) < e)
        (fun k => at_ (W k) n) B) as (x & Cx); auto.
    + intros e e' k _ Le A i X. specialize (A i X). lra.
    + exists (l ++ [x]). split; [rewrite app_length; simpl; lia|]. intros e N P0.
      destruct (Cx e N P0) as (k & Nk & A & Ax). exists k. split; auto. intros i X.
      destruct (Nat.eq_dec i n) as [->|Ne].
      * unfold at_ at 2. rewrite app_nth2 by lia. rewrite L, Nat.sub_diag. exact Ax.
      * unfold at_ at 2. rewrite app_nth1 by lia. apply A. lia.
Qed.

(** ** Sums *)

Lemma sigma_S n f : sigma (S n) f = sigma n f + f n.
Proof.
  unfold sigma. rewrite seq_S, map_app. simpl. generalize (map f (seq 0 n)). intros l.
  unfold rsum. induction l as [|x l IH]; simpl; [lra|]. rewrite IH. lra.
Qed.

Lemma sigma_term f : (forall j, 0 <= f j) -> forall n i, (i < n)%nat -> f i <= sigma n f.
Proof.
  intros N. induction n as [|n IH]; intros i L; [lia|]. rewrite sigma_S.
  destruct (Nat.eq_dec i n) as [->|Ne].
  - pose proof (sigma_nonneg n f N). lra.
  - pose proof (N n). specialize (IH i). assert (f i <= sigma n f) by (apply IH; lia). lra.
Qed.

Lemma sigma_le f g : forall n, (forall i, (i < n)%nat -> f i <= g i) -> sigma n f <= sigma n g.
Proof.
  induction n as [|n IH]; intros L; [unfold sigma; simpl; lra|]. rewrite !sigma_S.
  apply Rplus_le_compat; [apply IH; intros; apply L; lia|apply L; lia].
Qed.

Lemma sigma_const n x : sigma n (fun _ => x) = INR n * x.
Proof. induction n as [|n IH]; [unfold sigma; simpl; lra|]. rewrite sigma_S, IH, S_INR. lra. Qed.

Lemma sigma_abs f : forall n, Rabs (sigma n f) <= sigma n (fun i => Rabs (f i)).
Proof.
  induction n as [|n IH]; [unfold sigma; simpl; rewrite Rabs_R0; lra|]. rewrite !sigma_S.
  eapply Rle_trans; [apply Rabs_triang|]. lra.
Qed.

(** Products with something uniformly small. *)
Lemma sigma_small f g n e : 0 <= e -> (forall i, (i < n)%nat -> Rabs (g i) <= e) ->
  Rabs (sigma n (fun i => f i * g i)) <= sigma n (fun i => Rabs (f i)) * e.
Proof.
  intros P L. eapply Rle_trans; [apply sigma_abs|]. rewrite Rmult_comm, <- sigma_scal.
  apply sigma_le. intros i Li. rewrite Rabs_mult, Rmult_comm.
  apply Rmult_le_compat_r; [apply Rabs_pos|auto].
Qed.

Lemma dist2_coord w v i : (i < length w)%nat ->
  (at_ w i - at_ v i) * (at_ w i - at_ v i) <= dist2 w v.
Proof. intros L. unfold dist2. apply (sigma_term (fun i => (at_ w i - at_ v i) * (at_ w i - at_ v i))); auto. intros. apply Rle_0_sqr. Qed.

Lemma dist2_near w v e : 0 < e -> dist2 w v < e * e -> forall i, (i < length w)%nat -> Rabs (at_ w i - at_ v i) < e.
Proof.
  intros P Lt i L. pose proof (dist2_coord w v i L) as C. apply Rsqr_incrst_0; [|apply Rabs_pos|lra].
  rewrite <- Rsqr_abs. unfold Rsqr. lra.
Qed.

Lemma near_dist2 w v e : 0 <= e -> (forall i, (i < length w)%nat -> Rabs (at_ w i - at_ v i) <= e) ->
  dist2 w v <= INR (length w) * (e * e).
Proof.
  intros P L. unfold dist2. rewrite <- sigma_const. apply sigma_le. intros i Li. specialize (L i Li).
  replace ((at_ w i - at_ v i) * (at_ w i - at_ v i)) with (Rabs (at_ w i - at_ v i) * Rabs (at_ w i - at_ v i)).
  - apply Rmult_le_compat; auto using Rabs_pos.
  - rewrite <- Rabs_mult. apply Rabs_pos_eq. apply Rle_0_sqr.
Qed.

(** ** The updates *)
Section Sequence.
  Context {I : Type} (b : Basis R I) (n : nat) (D : list (I * R)) (s : nat -> I * R) (W : nat -> list R).
  Context (c : R -> R) (kappa : R).
  Context (Len : forall k, length (W k) = n).
  Context (From : forall k, In (s k) D).
  Context (Often : forall p, In p D -> forall N, exists k, (N <= k)%nat /\ s k = p).
  Context (Fi : forall p, In p D -> fits b n p).
  Context (Kp : 0 < kappa).
  Context (Rate : forall p, In p D -> kappa <= c (energy b p) * (2 - c (energy b p) * energy b p)).
  Context (Step : forall k, exists phi, b_project b (fst (s k)) = Ret (Ok phi) /\ sized n phi /\
    forall i, at_ (W (S k)) i = at_ (W k) i + c (norm2 phi) * (snd (s k) - predict phi (W k)) * coeff phi i).

  (** [v] explains a sample. *)
  Let solves (v : list R) (p : I * R) := unexplained b v p = 0.

  Lemma descend k v : solves v (s k) ->
    dist2 (W (S k)) v + kappa * (unexplained b (W k) (s k) * unexplained b (W k) (s k)) <= dist2 (W k) v.
  Proof.
    intros So. destruct (Step k) as (phi & P & Z & N). specialize (Rate _ (From k)).
    unfold solves, unexplained, energy in *. rewrite P in *.
    set (e := snd (s k) - predict phi (W k)) in *.
    pose proof (dist2_step (fun phi => c (norm2 phi)) phi (W k) (W (S k)) v e) as Dd. cbn beta in Dd.
    rewrite Dd; [|rewrite !Len; auto|rewrite Len; apply Z|exact N].
    replace (predict phi (W k) - predict phi v) with (- e) by (unfold e; lra).
    set (r := c (norm2 phi)) in *.
    assert (0 <= (r * (2 - r * norm2 phi) - kappa) * (e * e)) by (apply Rmult_le_pos; [lra|nra]). nra.
  Qed.

  Lemma descend_le k v : solves v (s k) -> dist2 (W (S k)) v <= dist2 (W k) v.
  Proof.
    intros So. pose proof (descend k v So).
    assert (0 <= kappa * (unexplained b (W k) (s k) * unexplained b (W k) (s k))) by (apply Rmult_le_pos; [lra|nra]). lra.
  Qed.

  Lemma descend_all k j v : (k <= j)%nat -> (forall m, (k <= m < j)%nat -> solves v (s m)) -> dist2 (W j) v <= dist2 (W k) v.
  Proof.
    intros Le. induction Le as [|j Le IH]; intros So; [lra|].
    pose proof (descend_le j v (So j ltac:(lia))). specialize (IH ltac:(intros; apply So; lia)). lra.
  Qed.

  Section Solution.
    Context (ws : list R) (Ws : forall p, In p D -> solves ws p).

    Lemma vanish e : 0 < e -> exists N, forall k, (N <= k)%nat -> Rabs (unexplained b (W k) (s k)) < e.
    Proof.
      intros P. destruct (decreasing_cv (fun k => dist2 (W k) ws)) as [l Cv].
      - intros k. apply descend_le, Ws, From.
      - exists 0. intros x [k ->]. unfold opp_seq. pose proof (dist2_nonneg (W k) ws). lra.
      - assert (P2 : 0 < kappa * (e * e) / 2) by (apply Rdiv_lt_0_compat; [apply Rmult_lt_0_compat; [auto|nra]|lra]).
        destruct (Cv _ P2) as [N Near]. exists N. intros k Nk.
        pose proof (Near k Nk) as A. pose proof (Near (S k) ltac:(lia)) as B.
        unfold R_dist in *. apply Rabs_def2 in A. apply Rabs_def2 in B.
        pose proof (descend k ws (Ws _ (From k))) as De. set (u := unexplained b (W k) (s k)) in *.
        apply Rsqr_incrst_0; [|apply Rabs_pos|lra]. rewrite <- Rsqr_abs. unfold Rsqr.
        apply Rmult_lt_reg_l with kappa; auto. lra.
    Qed.

    Lemma bounded : exists B, forall k i, Rabs (at_ (W k) i) <= B.
    Proof.
      exists (sigma n (fun i => Rabs (at_ ws i)) + (1 + dist2 (W 0%nat) ws)). intros k i.
      pose proof (dist2_nonneg (W 0%nat) ws) as D0.
      assert (S0 : 0 <= sigma n (fun i => Rabs (at_ ws i))) by (apply sigma_nonneg; intros; apply Rabs_pos).
      destruct (Nat.lt_ge_cases i n) as [L|L].
      - pose proof (sigma_term (fun i => Rabs (at_ ws i)) (fun j => Rabs_pos _) n i L) as T. cbn beta in T.
        assert (Dk : dist2 (W k) ws <= dist2 (W 0%nat) ws).
        { apply descend_all; [lia|]. intros. apply Ws, From. }
        assert (Rabs (at_ (W k) i - at_ ws i) <= 1 + dist2 (W 0%nat) ws).
        { left. apply dist2_near; [lra| |rewrite Len; auto]. nra. }
        pose proof (Rabs_triang (at_ (W k) i - at_ ws i) (at_ ws i)) as Tr.
        replace (at_ (W k) i - at_ ws i + at_ ws i) with (at_ (W k) i) in Tr by ring. lra.
      - unfold at_ at 1. rewrite nth_overflow by (rewrite Len; auto). rewrite Rabs_R0. lra.
    Qed.
  End Solution.

  (** Near [v], samples are explained about as well as by [v]. *)
  Lemma continuous v d : 0 < d -> forall l, (forall p, In p l -> fits b n p) -> exists e, 0 < e /\
    forall w, length w = n -> (forall i, (i < n)%nat -> Rabs (at_ w i - at_ v i) < e) ->
    forall p, In p l -> Rabs (unexplained b w p - unexplained b v p) < d.
  Proof.
    intros P. induction l as [|q l IH]; intros Fl.
    - exists 1. split; [lra|]. intros ? ? ? ? [].
    - destruct IH as (e & Pe & C); [intros; apply Fl; simpl; auto|].
      destruct (Fl q (or_introl eq_refl)) as (phi & Pq & Z).
      set (m := sigma n (fun i => Rabs (coeff phi i))).
      assert (M0 : 0 <= m) by (apply sigma_nonneg; intros; apply Rabs_pos).
      assert (Pm : 0 < d / (1 + m)) by (apply Rdiv_lt_0_compat; lra).
      exists (Rmin e (d / (1 + m))). split; [apply Rmin_pos; auto|]. intros w L Near p [<-|Ip].
      + unfold unexplained. rewrite Pq.
        assert (E : snd q - predict phi w - (snd q - predict phi v) =
                    - sigma n (fun i => coeff phi i * (at_ w i - at_ v i))).
        { unfold predict. rewrite (proj2 Z).
          rewrite (sigma_ext n (fun i => coeff phi i * (at_ w i - at_ v i))
             (fun i => coeff phi i * at_ w i + (-1) * (coeff phi i * at_ v i))) by (intros; ring).
          rewrite sigma_plus, sigma_scal. ring. }
        rewrite E, Rabs_Ropp.
        eapply Rle_lt_trans; [apply (sigma_small _ _ n (d / (1 + m))); [lra|]|].
        * intros i Li. specialize (Near i Li). pose proof (Rmin_r e (d / (1 + m))). lra.
        * fold m. apply Rmult_lt_reg_r with (1 + m); [lra|]. replace (m * (d / (1 + m)) * (1 + m)) with (m * d) by (field; lra). nra.
      + apply C; auto. intros i Li. specialize (Near i Li). pose proof (Rmin_l e (d / (1 + m))). lra.
  Qed.

  (** Samples [v] does not explain are wrong by at least some [d]. *)
  Lemma margin v : forall l, exists d, 0 < d /\ forall p, In p l -> ~ solves v p -> d <= Rabs (unexplained b v p).
  Proof.
    induction l as [|q l (d & P & M)].
    - exists 1. split; [lra|]. intros ? [].
    - destruct (Req_dec (unexplained b v q) 0) as [E|Ne].
      + exists d. split; auto. intros p [<-|Ip] Ns; [contradiction|auto].
      + exists (Rmin d (Rabs (unexplained b v q))). split; [apply Rmin_pos; auto using Rabs_pos_lt|].
        intros p [<-|Ip] Ns; [apply Rmin_r|]. eapply Rle_trans; [apply Rmin_l|auto].
  Qed.

  (** The first [k' >= k] at which [P]. *)
  Lemma first_from (P : nat -> Prop) k : (exists j, (k <= j)%nat /\ P j) ->
    exists j, (k <= j)%nat /\ P j /\ forall m, (k <= m < j)%nat -> ~ P m.
  Proof.
    intros (j & Le & Pj). remember (j - k)%nat as d eqn:Ed. revert j Le Pj Ed.
    induction d as [d IH] using lt_wf_ind. intros j Le Pj Ed.
    destruct (classic (exists m, (k <= m < j)%nat /\ P m)) as [(m & Lm & Pm)|No].
    - apply (IH (m - k)%nat ltac:(lia) m); auto. lia.
    - exists j. splits; auto. intros m Lm Pm. apply No. exists m. auto.
  Qed.

  Lemma square_root_bound e : 0 < e -> INR n * (e / (INR n + 1) * (e / (INR n + 1))) < e * e.
  Proof.
    intros P. pose proof (pos_INR n) as N. set (x := INR n) in *.
    assert (Q : x / (x + 1) < 1).
    { apply Rmult_lt_reg_r with (x + 1); [lra|]. unfold Rdiv. rewrite Rmult_assoc, Rinv_l; lra. }
    assert (Q' : 0 < / (x + 1) <= 1).
    { split; [apply Rinv_0_lt_compat; lra|]. rewrite <- Rinv_1. apply Rinv_le_contravar; lra. }
    replace (x * (e / (x + 1) * (e / (x + 1)))) with ((x / (x + 1)) * / (x + 1) * (e * e)) by (field; lra).
    assert (0 < e * e) by nra.
    assert (0 <= x / (x + 1)) by (apply Rmult_le_pos; lra).
    assert (x / (x + 1) * / (x + 1) < 1) by nra. nra.
  Qed.

  Theorem converges ws : (forall p, In p D -> solves ws p) -> exists wl, length wl = n /\
    (forall p, In p D -> solves wl p) /\
    (forall e, 0 < e -> exists N, forall k i, (N <= k)%nat -> Rabs (at_ (W k) i - at_ wl i) < e) /\
    forall v, (forall p, In p D -> solves v p) -> dist2 (W 0%nat) v = dist2 (W 0%nat) wl + dist2 wl v.
  Proof.
    intros Ws. destruct (bounded ws Ws) as [B Bd].
    destruct (cluster_list W B n Bd) as (wl & L & Cl).
    (* dist2 frequently small *)
    assert (Cl2 : forall e N, 0 < e -> exists k, (N <= k)%nat /\ dist2 (W k) wl < e * e).
    { intros e N P. destruct (Cl (e / (INR n + 1)) N) as (k & Nk & A).
      - apply Rdiv_lt_0_compat; auto. pose proof (pos_INR n). lra.
      - exists k. split; auto. eapply Rle_lt_trans; [|apply (square_root_bound e P)].
        rewrite <- (Len k) at 1. apply near_dist2.
        + apply Rlt_le, Rdiv_lt_0_compat; auto. pose proof (pos_INR n). lra.
        + intros i Li. rewrite Len in Li. left. auto. }
    assert (So : forall p, In p D -> solves wl p).
    { apply NNPP. intros C.
      assert (U : exists p, In p D /\ ~ solves wl p).
      { apply NNPP. intros C'. apply C. intros p Ip. apply NNPP. intros X. apply C'. exists p. auto. }
      destruct U as (p & Ip & Np). destruct (margin wl D) as (d & Pd & M).
      destruct (continuous wl (d / 2) ltac:(lra) D Fi) as (e & Pe & Co).
      destruct (vanish ws Ws (d / 2) ltac:(lra)) as [N Va].
      destruct (Cl2 e N Pe) as (k & Nk & Dk).
      destruct (Often p Ip k) as (j0 & Lj & Sj).
      destruct (first_from (fun j => ~ solves wl (s j)) k) as (j & Lj' & Nj & Bj).
      { exists j0. split; auto. rewrite Sj. auto. }
      assert (Dj : dist2 (W j) wl < e * e).
      { eapply Rle_lt_trans; [apply (descend_all k j); auto|exact Dk]. intros m Lm. apply NNPP. apply Bj. auto. }
      pose proof (Va j ltac:(lia)) as Small.
      pose proof (M (s j) (From j) Nj) as Large.
      assert (Near : Rabs (unexplained b (W j) (s j) - unexplained b wl (s j)) < d / 2).
      { apply Co; auto. intros i Li. apply dist2_near; auto. rewrite Len. auto. }
      pose proof (Rabs_triang (unexplained b (W j) (s j)) (- (unexplained b (W j) (s j) - unexplained b wl (s j)))) as T.
      replace (unexplained b (W j) (s j) + - (unexplained b (W j) (s j) - unexplained b wl (s j)))
        with (unexplained b wl (s j)) in T by ring.
      rewrite Rabs_Ropp in T. lra. }
    assert (Cv : forall e, 0 < e -> exists N, forall k i, (N <= k)%nat -> Rabs (at_ (W k) i - at_ wl i) < e).
    { intros e P. destruct (Cl2 e 0%nat P) as (N & _ & DN). exists N. intros k i Nk.
      destruct (Nat.lt_ge_cases i n) as [Li|Li].
      - apply dist2_near; auto; [|rewrite Len; auto].
        eapply Rle_lt_trans; [apply (descend_all N k); auto|exact DN].
      - unfold at_. rewrite !nth_overflow by (try rewrite Len; lia). rewrite Rminus_0_r, Rabs_R0. auto. }
    exists wl. splits; auto. intros v Sv.
    (* the run moves orthogonally to differences of solutions *)
    assert (Or : forall k, sigma n (fun i => (at_ v i - at_ wl i) * (at_ (W k) i - at_ (W 0%nat) i)) = 0).
    { induction k as [|k IH].
      - rewrite (sigma_ext n _ (fun _ => 0)) by (intros; ring). rewrite sigma_const. ring.
      - destruct (Step k) as (phi & Pk & Z & N).
        assert (O : sigma n (fun i => coeff phi i * (at_ v i - at_ wl i)) = 0).
        { pose proof (Sv _ (From k)) as A. pose proof (So _ (From k)) as A'.
          unfold solves, unexplained in A, A'. rewrite Pk in A, A'. unfold predict in A, A'. rewrite (proj2 Z) in A, A'.
          rewrite (sigma_ext n _ (fun i => coeff phi i * at_ v i + (-1) * (coeff phi i * at_ wl i))) by (intros; ring).
          rewrite sigma_plus, sigma_scal. lra. }
        set (g := c (norm2 phi) * (snd (s k) - predict phi (W k))) in *.
        rewrite (sigma_ext n _ (fun i => (at_ v i - at_ wl i) * (at_ (W k) i - at_ (W 0%nat) i)
           + g * (coeff phi i * (at_ v i - at_ wl i)))) by (intros; rewrite N; ring).
        rewrite sigma_plus, sigma_scal, IH, O. ring. }
    assert (Ol : sigma n (fun i => (at_ v i - at_ wl i) * (at_ wl i - at_ (W 0%nat) i)) = 0).
    { set (t := sigma n (fun i => (at_ v i - at_ wl i) * (at_ wl i - at_ (W 0%nat) i))).
      apply NNPP. intros Ne. set (m := sigma n (fun i => Rabs (at_ v i - at_ wl i))).
      assert (M0 : 0 <= m) by (apply sigma_nonneg; intros; apply Rabs_pos).
      assert (Pt : 0 < Rabs t) by (apply Rabs_pos_lt; auto).
      destruct (Cv (Rabs t / (1 + m))) as [N Near]; [apply Rdiv_lt_0_compat; lra|].
      assert (E : t = - sigma n (fun i => (at_ v i - at_ wl i) * (at_ (W N) i - at_ wl i))).
      { pose proof (Or N) as O. unfold t.
        rewrite (sigma_ext n _ (fun i => (at_ v i - at_ wl i) * (at_ (W N) i - at_ (W 0%nat) i) +
           (-1) * ((at_ v i - at_ wl i) * (at_ (W N) i - at_ wl i)))) by (intros; ring).
        rewrite sigma_plus, sigma_scal, O. ring. }
      assert (Rabs t <= m * (Rabs t / (1 + m))).
      { rewrite E at 1. rewrite Rabs_Ropp. apply sigma_small.
        - apply Rlt_le, Rdiv_lt_0_compat; lra.
        - intros i _. left. apply Near. auto. }
      assert (Rabs t * (1 + m) <= m * Rabs t).
      { replace (m * Rabs t) with (m * (Rabs t / (1 + m)) * (1 + m)) by (field; lra).
        apply Rmult_le_compat_r; lra. }
      nra. }
    unfold dist2. rewrite L, !Len.
    rewrite (sigma_ext n (fun i => (at_ (W 0%nat) i - at_ v i) * (at_ (W 0%nat) i - at_ v i))
      (fun i => (at_ (W 0%nat) i - at_ wl i) * (at_ (W 0%nat) i - at_ wl i) +
         ((at_ wl i - at_ v i) * (at_ wl i - at_ v i) +
          2 * ((at_ v i - at_ wl i) * (at_ wl i - at_ (W 0%nat) i))))) by (intros; ring).
    rewrite !sigma_plus, sigma_scal, Ol. ring.
  Qed.
End Sequence.

(** ** Approximators *)

(** The samples of [D], each infinitely often, in any order. *)
Definition visits {A} (s : nat -> A) (D : list A) : Prop :=
  (forall k, In (s k) D) /\ (forall p, In p D -> forall N, exists k, (N <= k)%nat /\ s k = p).

(** Fitting [s 0], [s 1], ... never panics, and the weights converge to [wl]. *)
Definition reaches {I} (o : Optimiser R R) (b : Basis R I) (lr : R) (w : list R) (s : nat -> I * R) (wl : list R) : Prop :=
  length wl = length w /\ exists W : nat -> list R,
    (forall k, s_run o (map fit_call (map s (seq 0 k))) (MkLFA b w lr) = Ret (MkLFA b (W k) lr)) /\
    forall e, 0 < e -> exists N, forall k i, (N <= k)%nat -> Rabs (at_ (W k) i - at_ wl i) < e.

(** [v] explains the sample, or its features vanish and no update can. *)
Definition settled {I} (b : Basis R I) (n : nat) (v : list R) (p : I * R) : Prop :=
  exists phi, b_project b (fst p) = Ret (Ok phi) /\ sized n phi /\ (snd p = predict phi v \/ norm2 phi = 0).

(** Rates for which repeated passes settle. *)
Definition steady {I} (o : Optimiser R R) (lr : R) (b : Basis R I) (D : list (I * R)) : Prop :=
  0 < lr /\ (o = SGD /\ (forall p, In p D -> lr * energy b p < 2) \/ o = ISGD).

Lemma s_run_app {I S} (o : Optimiser R S) h h' (a : ScalarLFA R I S) :
  s_run o (h ++ h') a = obind (s_run o h a) (s_run o h').
Proof.
  unfold s_run. revert a. induction h as [|x h IH]; intros a; [reflexivity|]. cbn [app ofold].
  destruct (s_do o a x); [apply IH|reflexivity].
Qed.

Lemma norm2_zero phi n i : sized n phi -> norm2 phi = 0 -> coeff phi i = 0.
Proof.
  intros [[K B] Z] E. destruct (Nat.lt_ge_cases i n) as [L|L].
  - pose proof (sigma_term (fun i => coeff phi i * coeff phi i) (fun j => Rle_0_sqr _) n i L) as T.
    unfold norm2 in E. rewrite Z in E. cbn beta in T. rewrite E in T. nra.
  - apply coeff_unstored; auto. intros S. apply B in S. lia.
Qed.

Lemma max_energy {I} (b : Basis R I) (D : list (I * R)) : exists q, 0 <= q /\ forall p, In p D -> energy b p <= q.
Proof.
  induction D as [|p D (q & Q & M)].
  - exists 0. split; [lra|]. intros ? [].
  - exists (Rmax (energy b p) q). split; [eapply Rle_trans; [exact Q|apply Rmax_r]|].
    intros p' [<-|Ip]; [apply Rmax_l|]. eapply Rle_trans; [apply M; auto|apply Rmax_r].
Qed.

Lemma steady_rule {I} o lr (b : Basis R I) D : steady o lr b D -> exists c kappa,
  linear_rule o lr (fun phi => c (norm2 phi)) /\ 0 < kappa /\ (forall q, 0 <= q -> 0 < c q) /\
  forall p, In p D -> kappa <= c (energy b p) * (2 - c (energy b p) * energy b p).
Proof.
  intros (P & [[-> En]| ->]).
  - assert (M : exists r, r < 2 /\ forall p, In p D -> lr * energy b p <= r).
    { clear -En. induction D as [|p D IH].
      - exists 0. split; [lra|]. intros ? [].
      - destruct IH as (r & R2 & M); [intros; apply En; simpl; auto|].
        exists (Rmax (lr * energy b p) r). split; [apply Rmax_lub_lt; auto; apply En; simpl; auto|].
        intros p' [<-|Ip]; [apply Rmax_l|]. eapply Rle_trans; [apply M; auto|apply Rmax_r]. }
    destruct M as (r & R2 & M). exists (fun _ => lr), (lr * (2 - r)). splits.
    + apply sgd_rule.
    + apply Rmult_lt_0_compat; lra.
    + auto.
    + intros p Ip. specialize (M p Ip). apply Rmult_le_compat_l; lra.
  - destruct (max_energy b D) as (Q & Q0 & M).
    exists (fun q => lr / (1 + lr * q)), (lr / (1 + lr * Q)). splits.
    + apply isgd_rule.
    + apply Rdiv_lt_0_compat; nra.
    + intros q Hq. apply Rdiv_lt_0_compat; nra.
    + intros p Ip. specialize (M p Ip). pose proof (energy_nonneg b p) as N. set (q := energy b p) in *.
      assert (D0 : 0 < 1 + lr * q) by nra. assert (D1 : 1 + lr * q <= 1 + lr * Q) by nra.
      assert (C1 : lr / (1 + lr * Q) <= lr / (1 + lr * q)).
      { apply Rmult_le_compat_l; [lra|]. apply Rinv_le_contravar; lra. }
      assert (C2 : lr / (1 + lr * q) * q <= 1).
      { apply Rmult_le_reg_r with (1 + lr * q); auto. field_simplify; lra. }
      assert (C3 : 0 < lr / (1 + lr * q)) by (apply Rdiv_lt_0_compat; lra). nra.
Qed.

(** The weights after [k] samples. *)
Section Run.
  Context {I : Type} (o : Optimiser R R) (lr : R) (c : R -> R).
  Context (Rule : linear_rule o lr (fun phi => c (norm2 phi))).
  Context (b : Basis R I) (w : list R) (D : list (I * R)) (s : nat -> I * R).
  Context (From : forall k, In (s k) D) (Fi : forall p, In p D -> fits b (length w) p).

  Definition weights_after (k : nat) : list R :=
    match s_run o (map fit_call (map s (seq 0 k))) (MkLFA b w lr) with
    | Ret a => lfa_weights a
    | Panic => []
    end.

  Lemma run_weights : forall k, length (weights_after k) = length w /\
    s_run o (map fit_call (map s (seq 0 k))) (MkLFA b w lr) = Ret (MkLFA b (weights_after k) lr).
  Proof.
    induction k as [|k (L & E)]; [simpl; auto|].
    destruct (Fi _ (From k)) as (phi & P & Z). rewrite <- L in Z.
    destruct (s k) as [x y] eqn:Es. cbn [fst] in P.
    destruct (fit_step o lr _ Rule b _ x y phi P Z) as (w1 & E1 & L1 & _).
    assert (E2 : s_run o (map fit_call (map s (seq 0 (S k)))) (MkLFA b w lr) = Ret (MkLFA b w1 lr)).
    { rewrite seq_S, !map_app, s_run_app, E. cbn [obind plus map]. rewrite Es.
      unfold s_run. cbn [ofold]. rewrite E1. reflexivity. }
    assert (E3 : weights_after (S k) = w1) by (unfold weights_after; rewrite E2; reflexivity).
    rewrite E3. split; [congruence|exact E2].
  Qed.

  Lemma run_step k : exists phi, b_project b (fst (s k)) = Ret (Ok phi) /\ sized (length w) phi /\
    forall i, at_ (weights_after (S k)) i =
      at_ (weights_after k) i + c (norm2 phi) * (snd (s k) - predict phi (weights_after k)) * coeff phi i.
  Proof.
    destruct (run_weights k) as [L E]. destruct (run_weights (S k)) as [_ E'].
    rewrite seq_S, !map_app, s_run_app, E in E'. cbn [obind plus map] in E'.
    destruct (Fi _ (From k)) as (phi & P & Z). exists phi. splits; auto.
    rewrite <- L in Z. destruct (s k) as [x y] eqn:Es. cbn [fst snd] in *.
    destruct (fit_step o lr _ Rule b _ x y phi P Z) as (w1 & E1 & L1 & _ & N & _).
    unfold s_run in E'. cbn [ofold] in E'. rewrite E1 in E'. injection E' as <-. exact N.
  Qed.
End Run.

Lemma consistent_unexplained {I} (b : Basis R I) n v p : fits b n p ->
  (consistent b n v p <-> unexplained b v p = 0).
Proof.
  intros (phi & P & Z). unfold consistent, unexplained. rewrite P. split.
  - intros (psi & E & _ & Y). injection E as <-. lra.
  - intros U. exists phi. splits; auto. lra.
Qed.

(** Samples whose features vanish, given the target 0. *)
Definition retarget {I} (b : Basis R I) (p : I * R) : I * R :=
  if Req_EM_T (energy b p) 0 then (fst p, 0) else p.

Lemma retarget_fst {I} (b : Basis R I) p : fst (retarget b p) = fst p.
Proof. unfold retarget. destruct (Req_EM_T (energy b p) 0); reflexivity. Qed.

Lemma retarget_energy {I} (b : Basis R I) p : energy b (retarget b p) = energy b p.
Proof. unfold energy. rewrite retarget_fst. reflexivity. Qed.

Lemma predict_vanish phi n v : sized n phi -> norm2 phi = 0 -> predict phi v = 0.
Proof.
  intros Z E. unfold predict. rewrite (sigma_ext _ _ (fun _ => 0)).
  - rewrite sigma_const. ring.
  - intros i _. rewrite (norm2_zero phi n i Z E). ring.
Qed.

Lemma retarget_settled {I} (b : Basis R I) n v p : fits b n p ->
  (settled b n v p <-> unexplained b v (retarget b p) = 0).
Proof.
  intros (phi & P & Z). unfold settled, unexplained. rewrite retarget_fst, P. split.
  - intros (psi & E & _ & Y). injection E as <-. unfold retarget, energy. rewrite P.
    destruct (Req_EM_T (norm2 phi) 0) as [E0|Ne]; cbn [snd].
    + rewrite (predict_vanish phi n v); auto. lra.
    + destruct Y as [Y|Y]; [lra|contradiction].
  - intros U. exists phi. splits; auto. unfold retarget, energy in U. rewrite P in U.
    destruct (Req_EM_T (norm2 phi) 0); auto. left. lra.
Qed.

Theorem passes_settle {I} o lr (b : Basis R I) w D s ws : steady o lr b D -> visits s D ->
  (forall p, In p D -> settled b (length w) ws p) ->
  exists wl, reaches o b lr w s wl /\ (forall p, In p D -> settled b (length w) wl p) /\
    forall v, (forall p, In p D -> settled b (length w) v p) -> dist2 w v = dist2 w wl + dist2 wl v.
Proof.
  intros St [From Often] Se.
  destruct (steady_rule o lr b D St) as (c & kappa & Rule & Kp & Cp & Rate).
  assert (Fi : forall p, In p D -> fits b (length w) p).
  { intros p Ip. destruct (Se p Ip) as (phi & P & Z & _). exists phi. auto. }
  set (W := weights_after o lr b w s).
  assert (RW := run_weights o lr c Rule b w D s From Fi). fold W in RW.
  destruct (converges b (length w) (map (retarget b) D) (fun k => retarget b (s k)) W c kappa) with (ws := ws)
    as (wl & L & So & Cv & Py).
  - intros k. apply RW.
  - intros k. apply in_map, From.
  - intros p Ip N. apply in_map_iff in Ip. destruct Ip as (q & <- & Iq).
    destruct (Often q Iq N) as (k & Nk & E). exists k. split; auto. rewrite E. reflexivity.
  - intros p Ip. apply in_map_iff in Ip. destruct Ip as (q & <- & Iq). destruct (Fi q Iq) as (phi & P & Z).
    exists phi. rewrite retarget_fst. auto.
  - exact Kp.
  - intros p Ip. apply in_map_iff in Ip. destruct Ip as (q & <- & Iq). rewrite retarget_energy. auto.
  - intros k. destruct (run_step o lr c Rule b w D s From Fi k) as (phi & P & Z & N). fold W in N.
    exists phi. rewrite retarget_fst. splits; auto. intros i. rewrite N. f_equal.
    unfold retarget, energy. rewrite P. destruct (Req_EM_T (norm2 phi) 0) as [E0|Ne]; cbn [snd]; auto.
    rewrite (norm2_zero phi _ i Z E0). ring.
  - intros p Ip. apply in_map_iff in Ip. destruct Ip as (q & <- & Iq).
    apply (retarget_settled b (length w) ws q); auto.
  - exists wl. splits.
    + split; [exact L|]. exists W. split; [apply RW|exact Cv].
    + intros p Ip. apply retarget_settled; auto. apply So, in_map, Ip.
    + intros v Sv. apply (Py v). intros p Ip. apply in_map_iff in Ip. destruct Ip as (q & <- & Iq).
      apply (retarget_settled b (length w) v q); auto.
Qed.

(** Converging runs settle every sample met again and again. *)
Theorem limit_settles {I} o lr (b : Basis R I) w D s wl : steady o lr b D -> visits s D ->
  (forall p, In p D -> fits b (length w) p) -> reaches o b lr w s wl ->
  forall p, In p D -> settled b (length w) wl p.
Proof.
  intros St [From Often] Fi (L & W & Run & Cv) p Ip.
  destruct (steady_rule o lr b D St) as (c & kappa & Rule & Kp & Cp & Rate).
  assert (RW := run_weights o lr c Rule b w D s From Fi).
  assert (EW : forall k, W k = weights_after o lr b w s k).
  { intros k. destruct (RW k) as [_ E]. rewrite Run in E. injection E. auto. }
  destruct (Fi p Ip) as (phi & P & Z). exists phi. splits; auto.
  destruct (Req_dec (norm2 phi) 0) as [E0|Ne]; [auto|left].
  assert (Ex : exists j, (j < length w)%nat /\ coeff phi j <> 0).
  { apply NNPP. intros C. apply Ne. unfold norm2. rewrite (sigma_ext _ _ (fun _ => 0)).
    - rewrite sigma_const. ring.
    - intros i Li. assert (coeff phi i = 0); [|nra]. apply NNPP. intros X. apply C. exists i.
      rewrite (proj2 Z) in Li. auto. }
  destruct Ex as (j & Lj & Cj).
  pose proof (Cp (norm2 phi) (norm2_nonneg phi)) as C0.
  apply NNPP. intros Y.
  assert (U0 : unexplained b wl p <> 0) by (unfold unexplained; rewrite P; lra).
  set (u := unexplained b wl p) in *. assert (Pu : 0 < Rabs u) by (apply Rabs_pos_lt; auto).
  destruct (continuous b (length w) wl (Rabs u / 2) ltac:(lra) [p]) as (e & Pe & Co).
  { intros q [<-|[]]. auto. }
  set (g := c (norm2 phi) * (Rabs u / 2) * Rabs (coeff phi j)).
  assert (Pg : 0 < g).
  { unfold g. apply Rmult_lt_0_compat; [apply Rmult_lt_0_compat; lra|apply Rabs_pos_lt; auto]. }
  destruct (Cv (Rmin e (g / 2))) as [N Near]; [apply Rmin_pos; lra|].
  destruct (Often p Ip N) as (k & Nk & Sk).
  destruct (run_step o lr c Rule b w D s From Fi k) as (phi' & P' & _ & St').
  rewrite Sk, P in P'. injection P' as <-. rewrite Sk in St'.
  specialize (St' j). rewrite <- !EW in St'.
  assert (Un : Rabs (unexplained b (W k) p - u) < Rabs u / 2).
  { apply Co; [rewrite EW; apply RW| |simpl; auto]. intros i _. specialize (Near k i Nk).
    pose proof (Rmin_l e (g / 2)). lra. }
  assert (Ub : Rabs u / 2 <= Rabs (snd p - predict phi (W k))).
  { unfold unexplained in Un at 1. rewrite P in Un.
    pose proof (Rabs_triang (snd p - predict phi (W k)) (- (snd p - predict phi (W k) - u))) as T.
    replace (snd p - predict phi (W k) + - (snd p - predict phi (W k) - u)) with u in T by ring.
    rewrite Rabs_Ropp in T. lra. }
  assert (Mv : g <= Rabs (at_ (W (S k)) j - at_ (W k) j)).
  { rewrite St'. replace (at_ (W k) j + c (norm2 phi) * (snd p - predict phi (W k)) * coeff phi j - at_ (W k) j)
      with (c (norm2 phi) * (snd p - predict phi (W k)) * coeff phi j) by ring.
    rewrite !Rabs_mult, (Rabs_pos_eq (c (norm2 phi))) by lra. unfold g.
    apply Rmult_le_compat_r; [apply Rabs_pos|]. apply Rmult_le_compat_l; lra. }
  pose proof (Near k j Nk) as A. pose proof (Near (S k) j ltac:(lia)) as A'.
  pose proof (Rmin_r e (g / 2)).
  pose proof (Rabs_triang (at_ (W (S k)) j - at_ wl j) (- (at_ (W k) j - at_ wl j))) as T.
  replace (at_ (W (S k)) j - at_ wl j + - (at_ (W k) j - at_ wl j)) with (at_ (W (S k)) j - at_ (W k) j) in T by ring.
  rewrite Rabs_Ropp in T. lra.
Qed.

Lemma dist2_zero w v : length w = length v -> dist2 w v = 0 -> w = v.
Proof.
  intros L E. apply (nth_ext w v 0 0); auto. intros i Li.
  pose proof (dist2_coord w v i Li) as C. rewrite E in C. fold (at_ w i) (at_ v i). nra.
Qed.

Lemma dist2_sym w v : length w = length v -> dist2 w v = dist2 v w.
Proof. intros L. unfold dist2. rewrite L. apply sigma_ext. intros. ring. Qed.

Lemma reaches_unique {I} o lr (b : Basis R I) w s wl wl' :
  reaches o b lr w s wl -> reaches o b lr w s wl' -> wl = wl'.
Proof.
  intros (L & W & Run & Cv) (L' & W' & Run' & Cv'). apply (nth_ext wl wl' 0 0); [congruence|].
  intros i _. fold (at_ wl i) (at_ wl' i). apply NNPP. intros Ne.
  set (d := Rabs (at_ wl i - at_ wl' i)). assert (Pd : 0 < d) by (apply Rabs_pos_lt; lra).
  destruct (Cv (d / 2) ltac:(lra)) as [N A]. destruct (Cv' (d / 2) ltac:(lra)) as [N' A'].
  set (k := Nat.max N N'). specialize (A k i ltac:(unfold k; lia)). specialize (A' k i ltac:(unfold k; lia)).
  pose proof (Run k) as E. rewrite Run' in E. injection E as E. rewrite E in A'.
  pose proof (Rabs_triang (at_ (W k) i - at_ wl' i) (- (at_ (W k) i - at_ wl i))) as T.
  replace (at_ (W k) i - at_ wl' i + - (at_ (W k) i - at_ wl i)) with (at_ wl i - at_ wl' i) in T by ring.
  rewrite Rabs_Ropp in T. fold d in T. lra.
Qed.

(** Neither order, rate nor optimiser matters to where the passes lead. *)
Theorem passes_same {I} o lr o' lr' (b : Basis R I) w D s s' wl wl' :
  steady o lr b D -> steady o' lr' b D -> visits s D -> visits s' D ->
  (forall p, In p D -> fits b (length w) p) ->
  reaches o b lr w s wl -> reaches o' b lr' w s' wl' -> wl = wl'.
Proof.
  intros St St' V V' Fi Re Re'.
  pose proof (limit_settles o lr b w D s wl St V Fi Re) as Se.
  pose proof (limit_settles o' lr' b w D s' wl' St' V' Fi Re') as Se'.
  destruct (passes_settle o lr b w D s wl St V Se) as (v & Rv & Sv & Py).
  destruct (passes_settle o' lr' b w D s' wl' St' V' Se') as (v' & Rv' & Sv' & Py').
  rewrite (reaches_unique _ _ _ _ _ _ _ Re Rv), (reaches_unique _ _ _ _ _ _ _ Re' Rv').
  pose proof (Py v' Sv') as A. pose proof (Py' v Sv) as A'.
  assert (L : length v = length v') by (destruct Rv as [-> _], Rv' as [-> _]; reflexivity).
  apply dist2_zero; auto. rewrite (dist2_sym v' v) in A' by auto. pose proof (dist2_nonneg v v'). lra.
Qed.

(** Passes through a list, one after the other. *)
Lemma cyclic_visits {A} (D : list A) d : D <> [] -> visits (fun k => nth (k mod length D) D d) D.
Proof.
  intros Ne. assert (L : (length D <> 0)%nat) by (destruct D; simpl; [congruence|lia]). split.
  - intros k. apply nth_In. apply Nat.mod_upper_bound. auto.
  - intros p Ip N. destruct (In_nth D p d Ip) as (j & Lj & E). exists (j + N * length D)%nat. split; [nia|].
    rewrite Nat.mod_add by auto. rewrite Nat.mod_small by auto. exact E.
Qed.

(** Evaluations at the samples converge to the targets. *)
Theorem passes_targets {I} o lr (b : Basis R I) w D s ws : steady o lr b D -> visits s D ->
  (forall p, In p D -> consistent b (length w) ws p) ->
  forall e, 0 < e -> exists N, forall k p, (N <= k)%nat -> In p D -> exists a v,
    s_run o (map fit_call (map s (seq 0 k))) (MkLFA b w lr) = Ret a /\
    s_evaluate a (fst p) = Ret (Ok v) /\ Rabs (v - snd p) < e.
Proof.
  intros St V Cs e Pe.
  assert (Fi : forall p, In p D -> fits b (length w) p).
  { intros p Ip. destruct (Cs p Ip) as (phi & P & Z & _). exists phi. auto. }
  destruct (passes_settle o lr b w D s ws St V) as (wl & (L & W & Run & Cv) & So & _).
  { intros p Ip. destruct (Cs p Ip) as (phi & P & Z & Y). exists phi. auto. }
  destruct (continuous b (length w) wl e Pe D Fi) as (d & Pd & Co). destruct (Cv d Pd) as [N Near].
  destruct (steady_rule o lr b D St) as (c & kappa & Rule & _).
  exists N. intros k p Nk Ip. destruct (So p Ip) as (phi & P & Z & Y).
  assert (Lk : length (W k) = length w).
  { destruct (run_weights o lr c Rule b w D s (proj1 V) Fi k) as [Lw E]. rewrite Run in E. injection E as ->. exact Lw. }
  exists (MkLFA b (W k) lr), (predict phi (W k)). splits; auto.
  - unfold s_evaluate. simpl. rewrite P. simpl. rewrite dot_predict by (rewrite Lk; auto). reflexivity.
  - specialize (Co (W k) Lk (fun i _ => Near k i Nk) p Ip).
    assert (Yp : snd p = predict phi wl).
    { destruct Y as [Y|Y]; auto. destruct (Cs p Ip) as (psi & P' & _ & Y'). rewrite P in P'. injection P' as <-.
      rewrite Y', !(predict_vanish phi (length w)); auto. }
    unfold unexplained in Co. rewrite P in Co.
    replace (predict phi (W k) - snd p) with (- (snd p - predict phi (W k) - (snd p - predict phi wl))) by (rewrite Yp; ring).
    rewrite Rabs_Ropp. exact Co.
Qed.

(** ** Whole passes *)

Lemma pass_once {A} (D : list A) d k : D <> [] ->
  map (fun j => nth (j mod length D) D d) (seq (k * length D) (length D)) = D.
Proof.
  intros Ne. assert (L : (length D <> 0)%nat) by (destruct D; simpl; [congruence|lia]).
  apply (nth_ext _ _ d d); rewrite map_length, seq_length; auto. intros i Li.
  rewrite (nth_indep _ d (nth (0 mod length D) D d)) by (rewrite map_length, seq_length; auto).
  rewrite (map_nth (fun j => nth (j mod length D) D d)), seq_nth by auto.
  rewrite Nat.add_comm, Nat.mod_add by auto. rewrite Nat.mod_small by auto. reflexivity.
Qed.

Lemma passes_concat {A} (D : list A) d : D <> [] -> forall k,
  map (fun j => nth (j mod length D) D d) (seq 0 (k * length D)) = concat (repeat D k).
Proof.
  intros Ne. induction k as [|k IH]; [reflexivity|].
  replace (S k * length D)%nat with (k * length D + length D)%nat by lia.
  rewrite seq_app, map_app, IH. cbn [plus]. rewrite pass_once by auto.
  replace (S k) with (k + 1)%nat by lia. rewrite repeat_app, concat_app. simpl. rewrite app_nil_r. reflexivity.
Qed.

Theorem whole_passes {I} o lr (b : Basis R I) w D ws : steady o lr b D ->
  (forall p, In p D -> consistent b (length w) ws p) ->
  forall e, 0 < e -> exists N, forall k p, (N <= k)%nat -> In p D -> exists a v,
    s_run o (map fit_call (concat (repeat D k))) (MkLFA b w lr) = Ret a /\
    s_evaluate a (fst p) = Ret (Ok v) /\ Rabs (v - snd p) < e.
Proof.
  intros St Cs e Pe. destruct D as [|d D'].
  - exists 0%nat. intros k p _ [].
  - assert (Ne : d :: D' <> []) by discriminate. set (D := d :: D') in *.
    destruct (passes_targets o lr b w D _ ws St (cyclic_visits D d Ne) Cs e Pe) as [N Hit].
    exists N. intros k p Nk Ip. destruct (Hit (k * length D)%nat p) as (a & v & Run & Ev & Cl); auto.
    + unfold D. simpl. nia.
    + rewrite (passes_concat D d Ne k) in Run. exists a, v. auto.
Qed.
