(** Mass-action equations x_k (1 + sum_l D_kl x_l) = 1 with non-negative coefficients:
    existence and uniqueness of the positive solution, for every dimension. *)
From Coq Require Import Reals Lra Lia List Arith.
From Coquelicot Require Import Coquelicot.
From Verif Require Import RSum.
Local Open Scope R_scope.

Section MassAction.
  Variable n : nat.
  Variable D : nat -> nat -> R.
  Hypothesis HD : forall k l, (k < n)%nat -> (l < n)%nat -> 0 <= D k l.

  Definition row (x : nat -> R) (k : nat) : R := Sum l < n, D k l * x l.
  Definition solves (x : nat -> R) : Prop :=
    forall k, (k < n)%nat -> 0 < x k /\ x k * (1 + row x k) = 1.

  Lemma row_nonneg x k : (k < n)%nat -> (forall l, (l < n)%nat -> 0 <= x l) -> 0 <= row x k.
  Proof. intros Hk H. apply rsum_nonneg. intros l Hl. apply seq_in in Hl. apply Rmult_le_pos; auto. Qed.

  Lemma row_le x y k : (k < n)%nat -> (forall l, (l < n)%nat -> x l <= y l) -> row x k <= row y k.
  Proof.
    intros Hk H. apply rsum_le. intros l Hl. apply seq_in in Hl. apply Rmult_le_compat_l; auto.
  Qed.

  Lemma row_scal x k c : row (fun l => c * x l) k = c * row x k.
  Proof. unfold row. rewrite <- rsum_scal. apply rsum_ext. intros; ring. Qed.

  Lemma solves_le1 x : solves x -> forall k, (k < n)%nat -> x k <= 1.
  Proof.
    intros S k Hk. destruct (S k Hk) as [P E].
    assert (0 <= row x k) by (apply row_nonneg; auto; intros l Hl; left; apply S; auto). nra.
  Qed.

  Lemma exists_max (m : nat) (f : nat -> R) : (0 < m)%nat ->
    exists k, (k < m)%nat /\ forall l, (l < m)%nat -> f l <= f k.
  Proof.
    induction m as [ | m IH]; [lia | ]. intros _. destruct m as [ | m].
    - exists 0%nat. split; [lia | ]. intros l Hl. replace l with 0%nat by lia. lra.
    - destruct IH as (k & Hk & Hm); [lia | ].
      destruct (Rle_dec (f (S m)) (f k)) as [L | L].
      + exists k; split; [lia | ]. intros l Hl. destruct (Nat.eq_dec l (S m)) as [-> | ]; auto.
        apply Hm; lia.
      + exists (S m); split; [lia | ]. intros l Hl. destruct (Nat.eq_dec l (S m)) as [-> | ]; [lra | ].
        specialize (Hm l ltac:(lia)). lra.
  Qed.

  (** key step: if u <= r * l and l * (1 + row u) = u * (1 + row l) = 1 then the largest ratio is <= 1 *)
  Lemma antitone_pair_le (u l : nat -> R) :
    (forall k, (k < n)%nat -> 0 < u k /\ u k * (1 + row l k) = 1) ->
    (forall k, (k < n)%nat -> 0 < l k /\ l k * (1 + row u k) = 1) ->
    forall k, (k < n)%nat -> u k <= l k.
  Proof.
    intros Hu Hl k0 Hk0.
    destruct (exists_max n (fun k => u k / l k)) as (k & Hk & Hm); [lia | ].
    set (r := u k / l k) in *.
    assert (Hr : 0 < r) by (unfold r; apply Rdiv_lt_0_compat; [apply Hu | apply Hl]; auto).
    assert (Hur : forall i, (i < n)%nat -> u i <= r * l i).
    { intros i Hi. specialize (Hm i Hi). simpl in Hm. destruct (Hl i Hi) as [P _].
      apply Rmult_le_reg_r with (/ l i); [apply Rinv_0_lt_compat; auto | ].
      rewrite Rmult_assoc, Rinv_r by lra. unfold Rdiv in Hm. lra. }
    assert (r <= 1).
    { destruct (Rle_dec r 1) as [ | Hn]; auto. exfalso.
      destruct (Hu k Hk) as [Pu Eu]. destruct (Hl k Hk) as [Pl El].
      assert (Er : u k = r * l k) by (unfold r; field; lra).
      assert (row u k <= r * row l k).
      { rewrite <- row_scal. apply row_le; auto. }
      assert (0 <= row l k) by (apply row_nonneg; auto; intros i Hi; left; apply Hl; auto).
      (* 1 + row u = r (1 + row l) *)
      assert (1 + row u k = r * (1 + row l k)).
      { apply Rmult_eq_reg_l with (l k); [ | lra]. rewrite El. rewrite <- Rmult_assoc.
        rewrite (Rmult_comm (l k) r), <- Er. auto. }
      nra. }
    specialize (Hur k0 Hk0). destruct (Hl k0 Hk0) as [P _]. nra.
  Qed.

  Theorem solves_unique x y : solves x -> solves y -> forall k, (k < n)%nat -> x k = y k.
  Proof.
    intros Sx Sy k Hk.
    (* r = largest of all ratios x/y and y/x *)
    destruct (exists_max n (fun i => Rmax (x i / y i) (y i / x i))) as (m & Hm & Hmax); [lia | ].
    assert (G : forall x y, solves x -> solves y ->
       x m / y m = Rmax (x m / y m) (y m / x m) ->
       (forall l, (l < n)%nat -> Rmax (x l / y l) (y l / x l) <= x m / y m) -> x m / y m <= 1).
    { clear - HD Hm. intros x y Sx Sy _ Hmax. set (r := x m / y m) in *.
      destruct (Rle_dec r 1) as [ | Hn]; auto. exfalso.
      destruct (Sx m Hm) as [Px Ex]. destruct (Sy m Hm) as [Py Ey].
      assert (Er : x m = r * y m) by (unfold r; field; lra).
      assert (Hlow : forall l, (l < n)%nat -> / r * y l <= x l).
      { intros l Hl. specialize (Hmax l Hl). destruct (Sx l Hl) as [Pxl _].
        pose proof (Rmax_r (x l / y l) (y l / x l)). assert (y l / x l <= r) as Q by lra.
        assert (y l <= r * x l).
        { apply Rmult_le_reg_r with (/ x l); [apply Rinv_0_lt_compat; auto | ].
          rewrite Rmult_assoc, Rinv_r by lra. unfold Rdiv in Q. lra. }
        apply Rmult_le_reg_l with r; [lra | ]. rewrite <- Rmult_assoc, Rinv_r by lra. lra. }
      assert (H1 : / r * row y m <= row x m) by (rewrite <- row_scal; apply row_le; auto).
      assert (Hri : / r < 1) by (rewrite <- Rinv_1; apply Rinv_lt_contravar; lra).
      assert (Hr0 : 0 < / r) by (apply Rinv_0_lt_compat; lra).
      (* (1 + row x) * r = 1 + row y *)
      assert (E : r * (1 + row x m) = 1 + row y m).
      { apply Rmult_eq_reg_l with (y m); [ | lra]. rewrite Ey, <- Rmult_assoc, (Rmult_comm (y m)), <- Er. auto. }
      assert (r * (1 + / r * row y m) <= r * (1 + row x m)) as H2
        by (apply Rmult_le_compat_l; lra).
      replace (r * (1 + / r * row y m)) with (r + row y m) in H2 by (field; lra). lra. }
    assert (Hle : Rmax (x m / y m) (y m / x m) <= 1).
    { destruct (Rle_dec (x m / y m) (y m / x m)) as [L | L].
      - rewrite Rmax_right by lra. apply G; auto.
        + rewrite Rmax_left; lra.
        + intros l Hl. specialize (Hmax l Hl). rewrite Rmax_comm, (Rmax_right (x m / y m)) in Hmax by lra.
          rewrite Rmax_comm in Hmax. rewrite Rmax_comm. auto.
      - rewrite Rmax_left by lra. apply G; auto.
        + rewrite Rmax_left; lra.
        + intros l Hl. specialize (Hmax l Hl). rewrite (Rmax_left (x m / y m)) in Hmax by lra. auto. }
    specialize (Hmax k Hk). destruct (Sx k Hk) as [Px _]. destruct (Sy k Hk) as [Py _].
    pose proof (Rmax_l (x k / y k) (y k / x k)). pose proof (Rmax_r (x k / y k) (y k / x k)).
    assert (A : x k / y k <= 1) by lra. assert (B : y k / x k <= 1) by lra.
    assert (x k <= y k).
    { apply Rmult_le_reg_r with (/ y k); [apply Rinv_0_lt_compat; auto | ].
      rewrite Rinv_r by lra. unfold Rdiv in A. lra. }
    assert (y k <= x k).
    { apply Rmult_le_reg_r with (/ x k); [apply Rinv_0_lt_compat; auto | ].
      rewrite Rinv_r by lra. unfold Rdiv in B. lra. }
    lra.
  Qed.

  (* ------------------------------------------------------------------ existence *)
  Definition Tm (x : nat -> R) : nat -> R := fun k => / (1 + row x k).
  Fixpoint up (i : nat) : nat -> R := match i with O => fun _ => 1 | S i => Tm (Tm (up i)) end.

  Lemma Tm_bounds x : (forall k, (k < n)%nat -> 0 <= x k) -> forall k, (k < n)%nat -> 0 < Tm x k <= 1.
  Proof.
    intros H k Hk. assert (0 <= row x k) by (apply row_nonneg; auto). unfold Tm. split.
    - apply Rinv_0_lt_compat. lra.
    - rewrite <- Rinv_1. apply Rinv_le_contravar; lra.
  Qed.
  Lemma Tm_anti x y : (forall k, (k < n)%nat -> 0 <= x k) -> (forall k, (k < n)%nat -> x k <= y k) ->
    forall k, (k < n)%nat -> Tm y k <= Tm x k.
  Proof.
    intros H0 H k Hk. assert (0 <= row x k) by (apply row_nonneg; auto).
    assert (row x k <= row y k) by (apply row_le; auto).
    unfold Tm. apply Rinv_le_contravar; lra.
  Qed.

  Lemma up_bounds i k : (k < n)%nat -> 0 < up i k <= 1.
  Proof.
    revert k; induction i as [ | i IH]; intros k Hk; simpl; [lra | ].
    apply Tm_bounds; auto. intros l Hl. left. apply Tm_bounds; auto. intros j Hj. left; apply IH; auto.
  Qed.
  Lemma up_dec i k : (k < n)%nat -> up (S i) k <= up i k.
  Proof.
    revert k; induction i as [ | i IH]; intros k Hk.
    - simpl. apply Tm_bounds; auto. intros l Hl; left. apply Tm_bounds; auto. intros; lra.
    - change (Tm (Tm (up (S i))) k <= Tm (Tm (up i)) k). apply Tm_anti; auto.
      + intros l Hl. left. apply Tm_bounds; auto. intros j Hj; left; apply up_bounds; auto.
      + intros l Hl. apply Tm_anti; auto. intros j Hj; left; apply up_bounds; auto.
  Qed.

  Lemma row_lim (u : nat -> nat -> R) (L : nat -> R) k :
    (forall l, (l < n)%nat -> is_lim_seq (fun i => u i l) (L l)) ->
    is_lim_seq (fun i => row (u i) k) (row L k).
  Proof.
    unfold row. intros H. assert (forall l, In l (seq 0 n) -> (l < n)%nat) as Hn by (intros; apply seq_in; auto).
    revert Hn. generalize (seq 0 n) as ls. induction ls as [ | a ls IH]; intros Hn; simpl.
    - apply is_lim_seq_const.
    - apply is_lim_seq_plus'.
      + apply (is_lim_seq_scal_l _ (D k a) (L a)). apply H, Hn. left; auto.
      + apply IH. intros; apply Hn; right; auto.
  Qed.

  Lemma Tm_lim (u : nat -> nat -> R) (L : nat -> R) k : (k < n)%nat ->
    (forall l, (l < n)%nat -> 0 <= L l) ->
    (forall l, (l < n)%nat -> is_lim_seq (fun i => u i l) (L l)) ->
    is_lim_seq (fun i => Tm (u i) k) (Tm L k).
  Proof.
    intros Hk H0 H. unfold Tm. apply (is_lim_seq_inv _ (1 + row L k)).
    - apply is_lim_seq_plus'; [apply is_lim_seq_const | apply row_lim; auto].
    - assert (0 <= row L k) by (apply row_nonneg; auto). intros E. injection E. lra.
  Qed.

  Theorem solves_exists : exists x, solves x.
  Proof.
    assert (Hcv : forall k, (k < n)%nat -> is_lim_seq (fun i => up i k) (Lim_seq (fun i => up i k))
                            /\ is_finite (Lim_seq (fun i => up i k))).
    { intros k Hk. destruct (ex_finite_lim_seq_decr (fun i => up i k) 0) as [l Hl].
      - intros i. apply up_dec; auto.
      - intros i. left. apply up_bounds; auto.
      - rewrite (is_lim_seq_unique _ _ Hl). split; auto. reflexivity. }
    set (L := fun k => real (Lim_seq (fun i => up i k))).
    assert (HL : forall k, (k < n)%nat -> is_lim_seq (fun i => up i k) (L k)).
    { intros k Hk. destruct (Hcv k Hk) as [A B]. unfold L. rewrite B. auto. }
    assert (H0 : forall k, (k < n)%nat -> 0 <= L k).
    { intros k Hk. apply (is_lim_seq_le (fun _ => 0) (fun i => up i k) 0 (L k)).
      - intros i; left; apply up_bounds; auto.
      - apply is_lim_seq_const.
      - auto. }
    (* L = T (T L) *)
    assert (Hfix : forall k, (k < n)%nat -> L k = Tm (Tm L) k).
    { intros k Hk.
      assert (A : is_lim_seq (fun i => up (S i) k) (L k)) by (apply (proj1 (is_lim_seq_incr_1 (fun i => up i k) (L k)) (HL k Hk))).
      assert (B : is_lim_seq (fun i => up (S i) k) (Tm (Tm L) k)).
      { simpl. apply (Tm_lim (fun i => Tm (up i)) (Tm L)); auto.
        - intros l Hl. left. apply Tm_bounds; auto.
        - intros l Hl. apply Tm_lim; auto. }
      apply is_lim_seq_unique in A. apply is_lim_seq_unique in B. rewrite A in B. injection B. auto. }
    assert (HT : forall x k, (k < n)%nat -> (forall l, (l < n)%nat -> 0 <= x l) -> Tm x k * (1 + row x k) = 1).
    { intros x k Hk Hx. unfold Tm. apply Rinv_l. assert (0 <= row x k) by (apply row_nonneg; auto). lra. }
    assert (HLp : forall k, (k < n)%nat -> 0 < L k).
    { intros k Hk. rewrite Hfix by auto. apply Tm_bounds; auto. intros l Hl; left; apply Tm_bounds; auto. }
    assert (PU : forall k, (k < n)%nat -> 0 < L k /\ L k * (1 + row (Tm L) k) = 1).
    { intros k Hk. split; auto. rewrite Hfix by auto. apply HT; auto.
      intros l Hl; left; apply Tm_bounds; auto. }
    assert (PL : forall k, (k < n)%nat -> 0 < Tm L k /\ Tm L k * (1 + row L k) = 1).
    { intros k Hk. split; [apply Tm_bounds; auto | apply HT; auto]. }
    exists L. intros k Hk. split; auto.
    assert (E : L k = Tm L k).
    { apply Rle_antisym; [apply (antitone_pair_le L (Tm L)) | apply (antitone_pair_le (Tm L) L)]; auto. }
    rewrite E at 1. apply HT; auto.
  Qed.
End MassAction.
