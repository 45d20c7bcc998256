(** The Newton iteration of the cross-association, algebraic part: valid for every commutative
    ring of numbers (reals, dual numbers of any order, power series). *)
From Coq Require Import ZArith QArith List Arith Lia Bool Ring Setoid.
From Verif Require Import Num RSum M_Params M_Eos.
Import ListNotations.
Local Open Scope num_scope.

Section Sums.
  Context {K : Num}.
  Notation T := (car K).
  Hypothesis Kr : ring_theory (@n0 K) (@n1 K) nadd nmul nsub nopp eq.
  Add Ring Kring : Kr.

  Lemma nsumi_S n (f : nat -> T) : nsumi (S n) f = nsumi n f + f n.
  Proof.
    unfold nsumi, mk1, nsum. rewrite seq_S, map_app, fold_left_app. reflexivity.
  Qed.
  Lemma nsumi_ext n (f g : nat -> T) : (forall i, (i < n)%nat -> f i = g i) -> nsumi n f = nsumi n g.
  Proof.
    unfold nsumi, mk1. intros H. f_equal. apply map_ext_in. intros i Hi. apply seq_in in Hi. auto.
  Qed.
  Lemma nsumi_0 n : nsumi n (fun _ : nat => @n0 K) = n0.
  Proof. induction n; [reflexivity | rewrite nsumi_S, IHn; ring]. Qed.
  Lemma nsumi_zero n (f : nat -> T) : (forall i, (i < n)%nat -> f i = n0) -> nsumi n f = n0.
  Proof. intros H. rewrite (nsumi_ext n f (fun _ => n0)) by auto. apply nsumi_0. Qed.
  Lemma nsumi_add n (f g : nat -> T) : nsumi n (fun i => f i + g i) = nsumi n f + nsumi n g.
  Proof. induction n; [cbn; ring | rewrite !nsumi_S, IHn; ring]. Qed.
  Lemma nsumi_sub n (f g : nat -> T) : nsumi n (fun i => f i - g i) = nsumi n f - nsumi n g.
  Proof. induction n; [cbn; ring | rewrite !nsumi_S, IHn; ring]. Qed.
  Lemma nsumi_opp n (f : nat -> T) : nsumi n (fun i => - f i) = - nsumi n f.
  Proof. induction n; [cbn; ring | rewrite !nsumi_S, IHn; ring]. Qed.
  Lemma nsumi_scal n (f : nat -> T) c : nsumi n (fun i => c * f i) = c * nsumi n f.
  Proof. induction n; [cbn; ring | rewrite !nsumi_S, IHn; ring]. Qed.
  Lemma nsumi_split n m (f : nat -> T) : nsumi (n + m) f = nsumi n f + nsumi m (fun i => f (n + i)%nat).
  Proof.
    induction m; [rewrite Nat.add_0_r; cbn; ring | ].
    rewrite Nat.add_succ_r, !nsumi_S, IHm. ring.
  Qed.
  Lemma nsumi_single n a (f : nat -> T) : (a < n)%nat -> (forall i, (i < n)%nat -> i <> a -> f i = n0) ->
    nsumi n f = f a.
  Proof.
    induction n as [ | n IH]; [lia | ]. intros Ha H. rewrite nsumi_S.
    destruct (Nat.eq_dec a n) as [-> | Hn].
    - rewrite (nsumi_zero n f) by (intros; apply H; lia). ring.
    - rewrite IH by (try lia; intros; apply H; lia). rewrite (H n) by lia. ring.
  Qed.
  Lemma nsumi_swap n m (f : nat -> nat -> T) :
    nsumi n (fun i => nsumi m (fun j => f i j)) = nsumi m (fun j => nsumi n (fun i => f i j)).
  Proof.
    induction n as [ | n IH]; [cbn; symmetry; apply nsumi_0 | ].
    rewrite nsumi_S, IH, <- nsumi_add. apply nsumi_ext. intros. rewrite nsumi_S. reflexivity.
  Qed.
End Sums.

(** matrix and vector access *)
Definition square {A} (N : nat) (h : list (list A)) : Prop :=
  length h = N /\ forall r, In r h -> length r = N.

Section Newton.
  Context {K : Num}.
  Notation T := (car K).
  Hypothesis Kr : ring_theory (@n0 K) (@n1 K) nadd nmul nsub nopp eq.
  Hypothesis Kdiv : forall a b : T, a / b = a * nrecip b.
  Add Ring Kring2 : Kr.

  Variables (n : nat) (delta : list (list T)) (na nb rho : list T).

  (** coefficients of the mass-action equations of all sites: first the A sites of all
      components, then the B sites; A bonds to B only *)
  Definition ca_D (k l : nat) : T :=
    if Nat.ltb k n
    then if Nat.ltb l n then n0 else ix2 delta k (l - n) * ix rho (l - n) * ix nb (l - n)
    else if Nat.ltb l n then ix2 delta (k - n) l * ix rho l * ix na l else n0.
  Definition ca_row (x : nat -> T) (k : nat) : T := nsumi (n + n) (fun l => ca_D k l * x l).
  (** residual of the mass-action equation of site [k] *)
  Definition ca_F (x : nat -> T) (k : nat) : T := x k * (n1 + ca_row x k) - n1.

  Lemma ca_row_a x k : (k < n)%nat ->
    ca_row x k = nsumi n (fun j => ix2 delta k j * ix rho j * ix nb j * x (n + j)%nat).
  Proof.
    intros Hk. unfold ca_row, ca_D. rewrite (nsumi_split Kr).
    rewrite (proj2 (Nat.ltb_lt k n)) by auto.
    rewrite (nsumi_zero Kr n).
    - replace (n0 + nsumi n _) with (nsumi n (fun j => ix2 delta k j * ix rho j * ix nb j * x (n + j)%nat)); [auto | ].
      transitivity (n0 + nsumi n (fun j => ix2 delta k j * ix rho j * ix nb j * x (n + j)%nat)); [ring | ].
      f_equal. apply nsumi_ext. intros j Hj. destruct (Nat.ltb_spec (n + j) n); [lia | ].
      replace (n + j - n)%nat with j by lia. auto.
    - intros l Hl. rewrite (proj2 (Nat.ltb_lt l n)) by auto. ring.
  Qed.
  Lemma ca_row_b x k : (n <= k)%nat ->
    ca_row x k = nsumi n (fun j => ix2 delta (k - n) j * ix rho j * ix na j * x j).
  Proof.
    intros Hk. unfold ca_row, ca_D. rewrite (nsumi_split Kr).
    rewrite (proj2 (Nat.ltb_ge k n)) by auto.
    rewrite (nsumi_zero Kr n (fun i => (if (n + i <? n)%nat then _ else _) * _)).
    - transitivity (nsumi n (fun j => ix2 delta (k - n) j * ix rho j * ix na j * x j) + n0); [ | ring].
      f_equal. apply nsumi_ext. intros j Hj. rewrite (proj2 (Nat.ltb_lt j n)) by auto. auto.
    - intros l Hl. destruct (Nat.ltb_spec (n + l) n); [lia | ]. ring.
  Qed.

  Lemma ix_firstn (x : list T) i : (i < n)%nat -> ix (firstn n x) i = ix x i.
  Proof. intros. unfold ix. revert x i H. induction n; intros x i H; [lia | ]. destruct x, i; simpl; auto. apply IHn0; lia. Qed.
  Lemma ix_skipn (x : list T) i : ix (skipn n x) i = ix x (n + i)%nat.
  Proof. unfold ix. revert x. induction n; intros x; [auto | ]. destruct x; simpl; auto. destruct i; auto. Qed.
  Lemma ix_app_l (a b : list T) i : (i < length a)%nat -> ix (a ++ b) i = ix a i.
  Proof. intros. unfold ix. apply app_nth1; auto. Qed.
  Lemma ix_app_r (a b : list T) i : (length a <= i)%nat -> ix (a ++ b) i = ix b (i - length a).
  Proof. intros. unfold ix. apply app_nth2; auto. Qed.

  Variable x : list T.
  Hypothesis Lx : length x = (n + n)%nat.

  Lemma ca_grad_length : length (ca_grad n delta na nb rho x) = (n + n)%nat.
  Proof. unfold ca_grad. rewrite app_length, !mk1_length. auto. Qed.

  Lemma ca_dnx_a k : (k < n)%nat -> ca_dnx n delta rho nb (skipn n x) k = n1 + ca_row (ix x) k.
  Proof.
    intros Hk. unfold ca_dnx. rewrite (ca_row_a _ k Hk). change ($1) with (@n1 K).
    rewrite (nsumi_ext n _ (fun j => ix2 delta k j * ix rho j * ix nb j * ix x (n + j)%nat)); [ring | ].
    intros j Hj. rewrite ix_skipn. ring.
  Qed.
  Lemma ca_dnx_b k : (n <= k)%nat -> ca_dnx n delta rho na (firstn n x) (k - n) = n1 + ca_row (ix x) k.
  Proof.
    intros Hk. unfold ca_dnx. rewrite (ca_row_b _ k Hk). change ($1) with (@n1 K).
    rewrite (nsumi_ext n _ (fun j => ix2 delta (k - n) j * ix rho j * ix na j * ix x j)); [ring | ].
    intros j Hj. rewrite ix_firstn by auto. ring.
  Qed.

  Theorem ca_grad_ix k : (k < n + n)%nat ->
    ix (ca_grad n delta na nb rho x) k = nrecip (ix x k) - (n1 + ca_row (ix x) k).
  Proof.
    intros Hk. unfold ca_grad. destruct (Nat.lt_ge_cases k n) as [H | H].
    - rewrite ix_app_l, ix_mk1 by (rewrite ?mk1_length; auto).
      rewrite ca_dnx_a, ix_firstn by auto. auto.
    - rewrite ix_app_r, mk1_length, ix_mk1 by (rewrite ?mk1_length; auto; lia).
      rewrite ca_dnx_b, ix_skipn by auto. replace (n + (k - n))%nat with k by lia. auto.
  Qed.

  Lemma ca_hess_square : square (n + n) (ca_hess n delta na nb rho x).
  Proof.
    unfold square, ca_hess. rewrite app_length, !mk1_length. split; auto.
    intros r Hr. apply in_app_or in Hr. unfold mk1 in Hr. rewrite !in_map_iff in Hr.
    destruct Hr as [(i & <- & _) | (i & <- & _)]; rewrite app_length, !map_length, seq_length; auto.
  Qed.

  Theorem ca_hess_ix k l : (k < n + n)%nat -> (l < n + n)%nat ->
    ix2 (ca_hess n delta na nb rho x) k l
    = (if Nat.eqb k l then - ((n1 + ca_row (ix x) k) * nrecip (ix x k)) else n0) - ca_D k l.
  Proof.
    intros Hk Hl. unfold ca_hess. unfold ix2.
    destruct (Nat.lt_ge_cases k n) as [H | H].
    - rewrite app_nth1, nth_mk1 by (rewrite ?mk1_length; auto).
      unfold ca_D, ix2. rewrite (proj2 (Nat.ltb_lt k n)) by auto.
      destruct (Nat.lt_ge_cases l n) as [H' | H'].
      + rewrite app_nth1, nth_mk1 by (rewrite ?mk1_length; auto). rewrite (proj2 (Nat.ltb_lt l n)) by auto.
        rewrite ca_dnx_a, ix_firstn, Kdiv by auto.
        destruct (Nat.eqb k l); ring.
      + rewrite app_nth2, mk1_length, nth_mk1 by (rewrite ?mk1_length; auto; lia).
        rewrite (proj2 (Nat.ltb_ge l n)) by auto.
        destruct (Nat.eqb_spec k l); [lia | ]. ring.
    - rewrite app_nth2, mk1_length, nth_mk1 by (rewrite ?mk1_length; auto; lia).
      unfold ca_D, ix2. rewrite (proj2 (Nat.ltb_ge k n)) by auto.
      destruct (Nat.lt_ge_cases l n) as [H' | H'].
      + rewrite app_nth1, nth_mk1 by (rewrite ?mk1_length; auto). rewrite (proj2 (Nat.ltb_lt l n)) by auto.
        destruct (Nat.eqb_spec k l); [lia | ]. ring.
      + rewrite app_nth2, mk1_length, nth_mk1 by (rewrite ?mk1_length; auto; lia).
        rewrite (proj2 (Nat.ltb_ge l n)) by auto.
        rewrite ca_dnx_b, ix_skipn, Kdiv by auto. replace (n + (k - n))%nat with k by lia.
        assert (E : Nat.eqb (k - n) (l - n) = Nat.eqb k l).
        { destruct (Nat.eqb_spec (k - n) (l - n)), (Nat.eqb_spec k l); auto; lia. }
        rewrite E. destruct (Nat.eqb k l); ring.
  Qed.

  (** the linear system of one step, row by row *)
  Lemma ca_hess_row (dx : nat -> T) k : (k < n + n)%nat ->
    nsumi (n + n) (fun l => ix2 (ca_hess n delta na nb rho x) k l * dx l)
    = - ((n1 + ca_row (ix x) k) * nrecip (ix x k)) * dx k - ca_row dx k.
  Proof.
    intros Hk.
    rewrite (nsumi_ext (n + n) _ (fun l => (if Nat.eqb k l then - ((n1 + ca_row (ix x) k) * nrecip (ix x k)) else n0) * dx l - ca_D k l * dx l)).
    2:{ intros l Hl. rewrite ca_hess_ix by auto. ring. }
    rewrite (nsumi_sub Kr). f_equal.
    rewrite (nsumi_single Kr (n + n) k); auto.
    - rewrite Nat.eqb_refl. auto.
    - intros i Hi Hn. destruct (Nat.eqb_spec k i); [congruence | ring].
  Qed.

  (** Newton step of the polynomial system [ca_F]: the step solves the linearised system ... *)
  Theorem ca_step_linear (dx : nat -> T) k : (k < n + n)%nat -> ix x k * nrecip (ix x k) = n1 ->
    nsumi (n + n) (fun l => ix2 (ca_hess n delta na nb rho x) k l * dx l) = ix (ca_grad n delta na nb rho x) k ->
    dx k * (n1 + ca_row (ix x) k) + ix x k * ca_row dx k = ca_F (ix x) k.
  Proof.
    intros Hk U E. rewrite ca_hess_row, ca_grad_ix in E by auto. unfold ca_F.
    assert (E' : ix x k * (- ((n1 + ca_row (ix x) k) * nrecip (ix x k)) * dx k - ca_row dx k)
       = ix x k * (nrecip (ix x k) - (n1 + ca_row (ix x) k))) by (f_equal; auto).
    replace (ix x k * (nrecip (ix x k) - (n1 + ca_row (ix x) k)))
      with (ix x k * nrecip (ix x k) - ix x k * (n1 + ca_row (ix x) k)) in E' by ring.
    replace (ix x k * (- ((n1 + ca_row (ix x) k) * nrecip (ix x k)) * dx k - ca_row dx k))
      with (- ((ix x k * nrecip (ix x k)) * (n1 + ca_row (ix x) k) * dx k) - ix x k * ca_row dx k) in E' by ring.
    rewrite U in E'.
    transitivity (- (- (n1 * (n1 + ca_row (ix x) k) * dx k) - ix x k * ca_row dx k)); [ring | ].
    rewrite E'. ring.
  Qed.
  (** ... and conversely *)
  Theorem ca_step_linear_conv (dx : nat -> T) k : (k < n + n)%nat -> ix x k * nrecip (ix x k) = n1 ->
    dx k * (n1 + ca_row (ix x) k) + ix x k * ca_row dx k = ca_F (ix x) k ->
    nsumi (n + n) (fun l => ix2 (ca_hess n delta na nb rho x) k l * dx l) = ix (ca_grad n delta na nb rho x) k.
  Proof.
    intros Hk U E. rewrite ca_hess_row, ca_grad_ix by auto. unfold ca_F in E.
    set (r := nrecip (ix x k)) in *. set (R := n1 + ca_row (ix x) k) in *.
    transitivity (- (r * (dx k * R + ix x k * ca_row dx k)) + (ix x k * r) * ca_row dx k - ca_row dx k); [ring | ].
    rewrite E, U. transitivity (r - (ix x k * r) * R); [ring | ]. rewrite U. ring.
  Qed.

  (** the residual after the step is quadratic in the step *)
  Theorem ca_F_step (dx : nat -> T) k :
    dx k * (n1 + ca_row (ix x) k) + ix x k * ca_row dx k = ca_F (ix x) k ->
    ca_F (fun l => ix x l - dx l) k = dx k * ca_row dx k.
  Proof.
    intros E. unfold ca_F in *.
    assert (Er : ca_row (fun l => ix x l - dx l) k = ca_row (ix x) k - ca_row dx k).
    { unfold ca_row. rewrite <- (nsumi_sub Kr). apply nsumi_ext. intros; ring. }
    rewrite Er.
    transitivity ((ix x k * (n1 + ca_row (ix x) k) - n1)
      - (dx k * (n1 + ca_row (ix x) k) + ix x k * ca_row dx k) + dx k * ca_row dx k); [ring | ].
    rewrite E. ring.
  Qed.
End Newton.
