(** Finite sums of reals over lists of indices and the translation of the model's loops. *)
From Coq Require Import ZArith QArith Reals Lra Lia List Bool Permutation.
From Verif Require Import Num RNum M_Eos.
Import ListNotations.
Local Open Scope R_scope.

Fixpoint rsum {A} (l : list A) (f : A -> R) : R :=
  match l with nil => 0 | i :: l => f i + rsum l f end.

Notation "'Sum' i < n , e" := (rsum (seq 0 n) (fun i => e))
  (at level 69, i name, n at level 60, e at level 69, right associativity).

Section Lists.
  Context {A : Type}.
  Implicit Types (l : list A) (f g : A -> R).

  Lemma rsum_ext l f g : (forall i, In i l -> f i = g i) -> rsum l f = rsum l g.
  Proof. induction l; simpl; intros H; auto. rewrite H, IHl; auto. Qed.

  Lemma rsum_app l l' f : rsum (l ++ l') f = rsum l f + rsum l' f.
  Proof. induction l; simpl; [lra | rewrite IHl; lra]. Qed.

  Lemma rsum_plus l f g : rsum l (fun i => f i + g i) = rsum l f + rsum l g.
  Proof. induction l; simpl; [lra | rewrite IHl; lra]. Qed.

  Lemma rsum_scal l f c : rsum l (fun i => c * f i) = c * rsum l f.
  Proof. induction l; simpl; [lra | rewrite IHl; lra]. Qed.

  Lemma rsum_scal_r l f c : rsum l (fun i => f i * c) = rsum l f * c.
  Proof. induction l; simpl; [lra | rewrite IHl; lra]. Qed.

  Lemma rsum_opp l f : rsum l (fun i => - f i) = - rsum l f.
  Proof. induction l; simpl; [lra | rewrite IHl; lra]. Qed.

  Lemma rsum_minus l f g : rsum l (fun i => f i - g i) = rsum l f - rsum l g.
  Proof. induction l; simpl; [lra | rewrite IHl; lra]. Qed.

  Lemma rsum_zero l f : (forall i, In i l -> f i = 0) -> rsum l f = 0.
  Proof. induction l; simpl; intros H; auto. rewrite H, IHl; auto; lra. Qed.

  Lemma rsum_perm l l' f : Permutation l l' -> rsum l f = rsum l' f.
  Proof. induction 1; simpl; lra. Qed.

  Lemma rsum_filter l f (q : A -> bool) :
    (forall i, In i l -> q i = false -> f i = 0) -> rsum (filter q l) f = rsum l f.
  Proof.
    induction l; simpl; intros H; auto. destruct (q a) eqn:E; simpl; rewrite IHl; auto.
    rewrite (H a); auto. lra.
  Qed.

  Lemma rsum_nonneg l f : (forall i, In i l -> 0 <= f i) -> 0 <= rsum l f.
  Proof.
    induction l; simpl; intros H; [lra | ]. assert (0 <= f a) by auto.
    assert (0 <= rsum l f) by auto. lra.
  Qed.

  Lemma rsum_le l f g : (forall i, In i l -> f i <= g i) -> rsum l f <= rsum l g.
  Proof.
    induction l; simpl; intros H; [lra | ]. assert (f a <= g a) by auto.
    assert (rsum l f <= rsum l g) by auto. lra.
  Qed.

  Lemma rsum_pos l f i : (forall i, In i l -> 0 <= f i) -> In i l -> 0 < f i -> 0 < rsum l f.
  Proof.
    induction l; simpl; intros H Hi Hp; [tauto | ]. assert (0 <= f a) by auto.
    assert (0 <= rsum l f) by (apply rsum_nonneg; auto).
    destruct Hi as [-> | Hi]; [lra | ]. assert (0 < rsum l f) by auto. lra.
  Qed.

  Lemma rsum_lt l f g i : (forall i, In i l -> f i <= g i) -> In i l -> f i < g i ->
    rsum l f < rsum l g.
  Proof.
    intros H Hi Hp. assert (0 < rsum l (fun i => g i - f i)) as Q.
    { apply (rsum_pos _ _ i); auto; [intros j Hj; specialize (H j Hj); lra | lra]. }
    rewrite rsum_minus in Q. lra.
  Qed.

  Lemma rsum_eq0 l f : (forall i, In i l -> 0 <= f i) -> rsum l f = 0 -> forall i, In i l -> f i = 0.
  Proof.
    intros H E i Hi. destruct (H i Hi) as [P | P]; auto.
    pose proof (rsum_pos l f i H Hi P). lra.
  Qed.

  Lemma rsum_le_one l f i : (forall i, In i l -> 0 <= f i) -> In i l -> f i <= rsum l f.
  Proof.
    induction l; simpl; intros H Hi; [tauto | ].
    assert (0 <= f a) by auto. assert (0 <= rsum l f) by (apply rsum_nonneg; auto).
    destruct Hi as [-> | Hi]; [lra | ]. assert (f i <= rsum l f) by auto. lra.
  Qed.
End Lists.

Lemma rsum_map {A B} (l : list A) (h : A -> B) f : rsum (map h l) f = rsum l (fun i => f (h i)).
Proof. induction l; simpl; auto. rewrite IHl; auto. Qed.

Lemma rsum_flat_map {A B} (l : list A) (h : A -> list B) f :
  rsum (flat_map h l) f = rsum l (fun i => rsum (h i) f).
Proof. induction l; simpl; auto. rewrite rsum_app, IHl; auto. Qed.

Lemma rsum_swap {A B} (l : list A) (l' : list B) f :
  rsum l (fun i => rsum l' (fun j => f i j)) = rsum l' (fun j => rsum l (fun i => f i j)).
Proof.
  induction l; simpl.
  - symmetry; apply rsum_zero; auto.
  - rewrite IHl, <- rsum_plus. apply rsum_ext; auto.
Qed.

Lemma rsum_sqr {A B} (l : list A) (l' : list B) f g :
  rsum l f * rsum l' g = rsum l (fun i => rsum l' (fun j => f i * g j)).
Proof.
  rewrite <- rsum_scal_r. apply rsum_ext. intros; rewrite rsum_scal; auto.
Qed.

Lemma seq_in n i : In i (seq 0 n) <-> (i < n)%nat.
Proof. rewrite in_seq; lia. Qed.

Lemma Sum_ext n f g : (forall i, (i < n)%nat -> f i = g i) -> rsum (seq 0 n) f = rsum (seq 0 n) g.
Proof. intros; apply rsum_ext; intros; apply H, seq_in; auto. Qed.

Lemma Sum_S n f : rsum (seq 0 (S n)) f = rsum (seq 0 n) f + f n.
Proof. rewrite seq_S, rsum_app; simpl; lra. Qed.

(** sum over a list = sum over its positions *)
Lemma rsum_nth {A} (l : list A) (d : A) f : rsum l f = Sum i < length l, f (nth i l d).
Proof.
  induction l as [ | a l IH]; simpl; auto.
  rewrite <- seq_shift, rsum_map, IH. auto.
Qed.

(* ---------------------------------------------------------- translation of the model *)

Lemma fold_add_R (l : list R) a : fold_left Rplus l a = a + rsum l (fun x => x).
Proof. revert a; induction l; simpl; intros; [lra | rewrite IHl; lra]. Qed.

Lemma nsum_R (l : list R) : @nsum RNum l = rsum l (fun x => x).
Proof. unfold nsum; rn. rewrite fold_add_R; lra. Qed.

Lemma fold_sub_R (l : list R) a : fold_left Rminus l a = a - rsum l (fun x => x).
Proof. revert a; induction l; simpl; intros; [lra | rewrite IHl; lra]. Qed.

Lemma nsubs_R (l : list R) : @nsubs RNum l = - rsum l (fun x => x).
Proof. unfold nsubs; rn. rewrite fold_sub_R; lra. Qed.

Lemma nsumi_R n f : @nsumi RNum n f = Sum i < n, f i.
Proof. unfold nsumi, mk1. rewrite nsum_R, rsum_map; auto. Qed.

Lemma ix_R (l : list R) i : @ix RNum l i = nth i l 0. Proof. reflexivity. Qed.
Lemma ix2_R (M : list (list R)) i j : @ix2 RNum M i j = nth j (nth i M nil) 0.
Proof. reflexivity. Qed.

Lemma mk1_length {A} n (f : nat -> A) : length (mk1 n f) = n.
Proof. unfold mk1; rewrite map_length, seq_length; auto. Qed.

Lemma nth_mk1 {A} n (f : nat -> A) i d : (i < n)%nat -> nth i (mk1 n f) d = f i.
Proof.
  intros. unfold mk1. rewrite (nth_indep _ d (f 0%nat)) by (rewrite map_length, seq_length; auto).
  rewrite map_nth, seq_nth; auto.
Qed.

Lemma ix_mk1 {K : Num} n (f : nat -> car K) i : (i < n)%nat -> ix (mk1 n f) i = f i.
Proof. intros; unfold ix; apply nth_mk1; auto. Qed.

Lemma ix2_mk2 {K : Num} n m (f : nat -> nat -> car K) i j :
  (i < n)%nat -> (j < m)%nat -> ix2 (mk2 n m f) i j = f i j.
Proof. intros; unfold ix2, mk2. rewrite nth_mk1, nth_mk1; auto. Qed.

Lemma ix_map {K : Num} {A} (g : A -> car K) l i d :
  (i < length l)%nat -> ix (map g l) i = g (nth i l d).
Proof.
  intros. unfold ix. rewrite (nth_indep _ n0 (g d)) by (rewrite map_length; auto).
  apply map_nth.
Qed.

(* ------------------------------------------------------------- triangular loops *)

Lemma above_S i n : (i < n)%nat -> above i (S n) = above i n ++ [n].
Proof.
  intros. unfold above. replace (S n - S i)%nat with (S (n - S i))%nat by lia.
  rewrite seq_S. f_equal. f_equal. lia.
Qed.
Lemma above_self n : above n (S n) = [].
Proof. unfold above. replace (S n - S n)%nat with 0%nat by lia. auto. Qed.
Lemma above_in i n j : In j (above i n) <-> (i < j < n)%nat.
Proof. unfold above. rewrite in_seq. lia. Qed.

(** the loop [i; j > i] with weights 1 and 2 is the full symmetric double sum *)
Lemma tri2_sum n (g : nat -> nat -> R) : (forall i j, g i j = g j i) ->
  Sum i < n, (g i i + rsum (above i n) (fun j => 2 * g i j)) = Sum i < n, Sum j < n, g i j.
Proof.
  intros Hs. induction n; [reflexivity | ].
  rewrite !Sum_S, above_self.
  rewrite (Sum_ext n _ (fun i => (g i i + rsum (above i n) (fun j => 2 * g i j)) + 2 * g i n)).
  2:{ intros i Hi. rewrite above_S by auto. rewrite rsum_app. simpl. lra. }
  rewrite rsum_plus, IHn.
  rewrite (Sum_ext n (fun i => rsum (seq 0 (S n)) (fun j => g i j))
             (fun i => (Sum j < n, g i j) + g i n)) by (intros; apply Sum_S).
  rewrite rsum_plus, rsum_scal. simpl.
  rewrite (Sum_ext n (fun j => g n j) (fun j => g j n)) by auto. lra.
Qed.

(** the loop [i; j > i; k > j] with weights 1, 3, 3, 6 is the full symmetric triple sum *)
Lemma tri3_sum n (g : nat -> nat -> nat -> R) :
  (forall i j k, g i j k = g j i k) -> (forall i j k, g i j k = g i k j) ->
  Sum i < n, (g i i i + rsum (above i n) (fun j =>
     3 * g i i j + (3 * g i j j + rsum (above j n) (fun k => 6 * g i j k))))
  = Sum i < n, Sum j < n, Sum k < n, g i j k.
Proof.
  intros H1 H2. induction n; [reflexivity | ].
  (* right-hand side *)
  assert (R : (Sum i < S n, Sum j < S n, Sum k < S n, g i j k)
     = (Sum i < n, Sum j < n, Sum k < n, g i j k)
       + 3 * (Sum i < n, Sum j < n, g i j n) + 3 * (Sum i < n, g i n n) + g n n n).
  { rewrite Sum_S.
    rewrite (Sum_ext n _ (fun i => (Sum j < n, Sum k < n, g i j k) + (Sum j < n, g i j n)
        + (Sum k < n, g i k n) + g i n n)).
    2:{ intros i Hi. rewrite !Sum_S.
        rewrite (Sum_ext n (fun j => rsum (seq 0 (S n)) (fun k => g i j k))
           (fun j => (Sum k < n, g i j k) + g i j n)) by (intros; apply Sum_S).
        rewrite rsum_plus. rewrite (Sum_ext n (fun k => g i n k) (fun k => g i k n)) by auto. lra. }
    rewrite !rsum_plus.
    rewrite Sum_S.
    rewrite (Sum_ext n (fun j => rsum (seq 0 (S n)) (fun k => g n j k))
       (fun j => (Sum k < n, g j k n) + g j n n)).
    2:{ intros j Hj. rewrite Sum_S. f_equal; [ | rewrite H1; auto].
        apply Sum_ext; intros. rewrite H1, H2; auto. }
    rewrite rsum_plus, Sum_S.
    rewrite (Sum_ext n (fun k => g n n k) (fun k => g k n n)) by (intros; rewrite H2, H1; auto).
    lra. }
  rewrite R, Sum_S, above_self; clear R. rewrite <- IHn; clear IHn.
  rewrite (Sum_ext n _ (fun i => (g i i i + rsum (above i n) (fun j =>
     3 * g i i j + (3 * g i j j + rsum (above j n) (fun k => 6 * g i j k))))
     + 3 * (g i i n + rsum (above i n) (fun j => 2 * g i j n)) + 3 * g i n n)).
  2:{ intros i Hi. rewrite above_S by auto. rewrite rsum_app.
      simpl. rewrite above_self. simpl.
      rewrite (rsum_ext (above i n) _ (fun j =>
         (3 * g i i j + (3 * g i j j + rsum (above j n) (fun k => 6 * g i j k))) + 6 * g i j n)).
      2:{ intros j Hj. apply above_in in Hj. rewrite above_S by lia. rewrite rsum_app. simpl. lra. }
      rewrite rsum_plus, !rsum_scal. lra. }
  rewrite !rsum_plus, !rsum_scal.
  rewrite (tri2_sum n (fun i j => g i j n)) by auto. simpl. lra.
Qed.

(** loops over index lists as sums over the listed components *)
Lemma tri2_list (l : list nat) (g : nat -> nat -> R) (diag : nat -> R) (off : nat -> nat -> R) :
  (forall a b, g a b = g b a) ->
  (forall i, (i < length l)%nat -> diag i = g (ixn l i) (ixn l i)) ->
  (forall i j, (i < j)%nat -> (j < length l)%nat -> off i j = 2 * g (ixn l i) (ixn l j)) ->
  rsum (tri2 (K := RNum) (length l) diag off) (fun x => x) = rsum l (fun a => rsum l (fun b => g a b)).
Proof.
  intros Hs Hd Ho. unfold tri2. rewrite rsum_flat_map.
  rewrite (rsum_nth l 0%nat (fun a => rsum l (fun b => g a b))).
  rewrite (Sum_ext _ (fun i => rsum l (fun b => g (nth i l 0%nat) b))
     (fun i => Sum j < length l, g (ixn l i) (ixn l j))) by (intros; apply (rsum_nth l 0%nat)).
  rewrite <- (tri2_sum (length l) (fun i j => g (ixn l i) (ixn l j))) by auto.
  apply Sum_ext; intros i Hi. simpl. rewrite Hd by auto. f_equal.
  rewrite rsum_map. apply rsum_ext. intros j Hj. apply above_in in Hj. apply Ho; lia.
Qed.

Lemma tri3_list (l : list nat) (g : nat -> nat -> nat -> R) (diag : nat -> R)
    (iij ijj : nat -> nat -> R) (ijk : nat -> nat -> nat -> R) :
  (forall a b c, g a b c = g b a c) -> (forall a b c, g a b c = g a c b) ->
  (forall i, (i < length l)%nat -> diag i = g (ixn l i) (ixn l i) (ixn l i)) ->
  (forall i j, (i < length l)%nat -> (j < length l)%nat ->
     iij i j = 3 * g (ixn l i) (ixn l i) (ixn l j)) ->
  (forall i j, (i < length l)%nat -> (j < length l)%nat ->
     ijj i j = 3 * g (ixn l i) (ixn l j) (ixn l j)) ->
  (forall i j k, (i < length l)%nat -> (j < length l)%nat -> (k < length l)%nat ->
     ijk i j k = 6 * g (ixn l i) (ixn l j) (ixn l k)) ->
  rsum (tri3 (K := RNum) (length l) diag iij ijj ijk) (fun x => x)
  = rsum l (fun a => rsum l (fun b => rsum l (fun c => g a b c))).
Proof.
  intros H1 H2 Hd Hij Hjj Hk. unfold tri3. rewrite rsum_flat_map.
  rewrite (rsum_nth l 0%nat (fun a => rsum l (fun b => rsum l (fun c => g a b c)))).
  rewrite (Sum_ext _ (fun i => rsum l (fun b => rsum l (fun c => g (nth i l 0%nat) b c)))
     (fun i => Sum j < length l, Sum k < length l, g (ixn l i) (ixn l j) (ixn l k))).
  2:{ intros i Hi. rewrite (rsum_nth l 0%nat). apply Sum_ext; intros j Hj.
      apply (rsum_nth l 0%nat). }
  rewrite <- (tri3_sum (length l) (fun i j k => g (ixn l i) (ixn l j) (ixn l k))) by auto.
  apply Sum_ext; intros i Hi. simpl. rewrite Hd by auto. f_equal.
  rewrite rsum_flat_map. apply rsum_ext. intros j Hj. apply above_in in Hj. simpl.
  rewrite Hij, Hjj by lia. do 2 f_equal.
  rewrite rsum_map. apply rsum_ext. intros k Hk'. apply above_in in Hk'. apply Hk; lia.
Qed.

(** rectangular loops over two index lists *)
Lemma rect2_list (l l' : list nat) (f g : nat -> nat -> R) :
  (forall i j, (i < length l)%nat -> (j < length l')%nat -> f i j = g (ixn l i) (ixn l' j)) ->
  (Sum i < length l, Sum j < length l', f i j) = rsum l (fun a => rsum l' (fun b => g a b)).
Proof.
  intros H. rewrite (rsum_nth l 0%nat (fun a => rsum l' (fun b => g a b))).
  apply Sum_ext; intros i Hi. rewrite (rsum_nth l' 0%nat (fun b => g _ b)).
  apply Sum_ext; intros j Hj. apply H; auto.
Qed.

(** a sum restricted to the listed components is the full sum when the other terms vanish *)
Lemma rsum_filter2 n (q q' : nat -> bool) (g : nat -> nat -> R) :
  (forall a b, (a < n)%nat -> (b < n)%nat -> q a = false -> g a b = 0) ->
  (forall a b, (a < n)%nat -> (b < n)%nat -> q' b = false -> g a b = 0) ->
  rsum (filter q (seq 0 n)) (fun a => rsum (filter q' (seq 0 n)) (fun b => g a b))
  = Sum a < n, Sum b < n, g a b.
Proof.
  intros Ha Hb. rewrite (rsum_filter (seq 0 n)).
  - apply Sum_ext; intros a La. apply rsum_filter. intros b Lb. apply seq_in in Lb. auto.
  - intros a La E. apply seq_in in La. apply rsum_zero. intros b Lb. apply filter_In in Lb.
    destruct Lb as [Lb _]. apply seq_in in Lb. auto.
Qed.

Lemma rsum_filter3 n (q q' q'' : nat -> bool) (g : nat -> nat -> nat -> R) :
  (forall a b c, (a < n)%nat -> (b < n)%nat -> (c < n)%nat -> q a = false -> g a b c = 0) ->
  (forall a b c, (a < n)%nat -> (b < n)%nat -> (c < n)%nat -> q' b = false -> g a b c = 0) ->
  (forall a b c, (a < n)%nat -> (b < n)%nat -> (c < n)%nat -> q'' c = false -> g a b c = 0) ->
  rsum (filter q (seq 0 n)) (fun a => rsum (filter q' (seq 0 n)) (fun b =>
    rsum (filter q'' (seq 0 n)) (fun c => g a b c)))
  = Sum a < n, Sum b < n, Sum c < n, g a b c.
Proof.
  intros Ha Hb Hc. rewrite (rsum_filter (seq 0 n)).
  - apply Sum_ext; intros a La. apply rsum_filter2; auto.
  - intros a La E. apply seq_in in La. apply rsum_zero. intros b Lb. apply filter_In in Lb.
    destruct Lb as [Lb _]. apply seq_in in Lb. apply rsum_zero. intros c Lc.
    apply filter_In in Lc. destruct Lc as [Lc _]. apply seq_in in Lc. auto.
Qed.

Lemma Sum_single n a (f : nat -> R) : (a < n)%nat ->
  (forall j, (j < n)%nat -> j <> a -> f j = 0) -> rsum (seq 0 n) f = f a.
Proof.
  intros Ha H. rewrite <- (rsum_filter (seq 0 n) f (Nat.eqb a)).
  2:{ intros i Hi E. apply Nat.eqb_neq in E. apply H; [apply seq_in | ]; auto. }
  assert (forall s, (s <= a < s + n)%nat -> filter (Nat.eqb a) (seq s n) = [a]) as F.
  { clear. induction n as [ | n IH]; intros s Hs; [lia | ]. simpl.
    destruct (Nat.eqb_spec a s) as [-> | Hne].
    - f_equal. clear. assert (forall t, (s < t)%nat -> filter (Nat.eqb s) (seq t n) = []).
      { induction n; intros t Ht; simpl; auto. destruct (Nat.eqb_spec s t); [lia | ]. apply IHn; lia. }
      apply H; lia.
    - apply IH; lia. }
  rewrite F by lia. simpl. lra.
Qed.
