(** Specification of the external linear solver, and an implementation meeting it (Gaussian
    elimination with row pivoting), so that theorems assuming the specification are not vacuous. *)
From Coq Require Import Reals Lra Lia List Arith Bool.
From Verif Require Import Num RNum RSum M_Params M_Eos F_Newton.
Import ListNotations.
Local Open Scope R_scope.

Definition mat_vec (N : nat) (h : list (list R)) (z : nat -> R) (k : nat) : R :=
  Sum l < N, @ix2 RNum h k l * z l.
Definition nonsingular (N : nat) (h : list (list R)) : Prop :=
  forall z, (forall k, (k < N)%nat -> mat_vec N h z k = 0) -> forall k, (k < N)%nat -> z k = 0.

(** exact solver: succeeds iff the matrix is nonsingular, and then returns the solution *)
Definition lu_exact (lu : lu_solver RNum) : Prop :=
  forall N (h : list (list R)) (g : list R), square N h -> length g = N ->
  match lu h g with
  | Some dx => nonsingular N h /\ length dx = N /\ forall k, (k < N)%nat -> mat_vec N h (fun l => nth l dx 0) k = nth k g 0
  | None => ~ nonsingular N h
  end.

Fixpoint dot (a b : list R) : R :=
  match a, b with x :: a', y :: b' => x * y + dot a' b' | _, _ => 0 end.

Notation arow := (list R * R)%type.
Fixpoint find_pivot (rows : list arow) : option (arow * list arow) :=
  match rows with
  | [] => None
  | r :: rs => if Req_EM_T (hd 0 (fst r)) 0
               then match find_pivot rs with Some (p, o) => Some (p, r :: o) | None => None end
               else Some (r, rs)
  end.
Fixpoint axpy (c : R) (x y : list R) : list R :=   (* y - c x *)
  match x, y with a :: x', b :: y' => (b - c * a) :: axpy c x' y' | _, _ => [] end.
Definition reduce (p r : arow) : arow :=
  let c := hd 0 (fst r) / hd 0 (fst p) in
  (axpy c (tl (fst p)) (tl (fst r)), snd r - c * snd p).
Fixpoint gauss (N : nat) (rows : list arow) : option (list R) :=
  match N with
  | O => Some []
  | S N' =>
      match find_pivot rows with
      | None => None
      | Some (p, o) =>
          match gauss N' (map (reduce p) o) with
          | None => None
          | Some z => Some ((snd p - dot (tl (fst p)) z) / hd 0 (fst p) :: z)
          end
      end
  end.
Definition gauss_lu : lu_solver RNum := fun (h : list (list R)) (g : list R) => gauss (length g) (combine h g).

Definition wfr (N : nat) (rows : list arow) := length rows = N /\ forall r, In r rows -> length (fst r) = N.
Definition sol (N : nat) (rows : list arow) (z : list R) := length z = N /\ forall r, In r rows -> dot (fst r) z = snd r.
Definition hom (rows : list arow) : list arow := map (fun r => (fst r, 0)) rows.

Lemma find_pivot_Some rows p o : find_pivot rows = Some (p, o) ->
  hd 0 (fst p) <> 0 /\ (forall r, In r rows <-> r = p \/ In r o) /\ length rows = S (length o).
Proof.
  revert p o. induction rows as [ | r rs IH]; simpl; intros p o H; [discriminate | ].
  destruct (Req_EM_T (hd 0 (fst r)) 0) as [E | E].
  - destruct (find_pivot rs) as [[p' o'] | ]; [ | discriminate]. inversion H; subst.
    destruct (IH p o' eq_refl) as (A & B & C). split; auto. split; [ | simpl; lia].
    intros q. rewrite B. simpl. intuition.
  - inversion H; subst. split; auto. split; auto. intros q. intuition.
Qed.
Lemma find_pivot_None rows : find_pivot rows = None -> forall r, In r rows -> hd 0 (fst r) = 0.
Proof.
  induction rows as [ | r rs IH]; simpl; intros H q Hq; [tauto | ].
  destruct (Req_EM_T (hd 0 (fst r)) 0) as [E | ]; [ | discriminate].
  destruct Hq as [<- | Hq]; auto.
  destruct (find_pivot rs) as [[? ?] | ]; [discriminate | ]. apply IH; auto.
Qed.
Lemma axpy_length c x y : length x = length y -> length (axpy c x y) = length x.
Proof. revert y; induction x; destruct y; simpl; intros; try discriminate; auto. Qed.
Lemma dot_axpy c x y z : length x = length y -> dot (axpy c x y) z = dot y z - c * dot x z.
Proof.
  revert y z; induction x as [ | a x IH]; destruct y as [ | b y]; simpl; intros z H; try discriminate; [lra | ].
  destruct z as [ | w z]; [lra | ]. rewrite IH by auto. ring.
Qed.
Lemma dot_hd_tl a w z : (0 < length a)%nat -> dot a (w :: z) = hd 0 a * w + dot (tl a) z.
Proof. destruct a; simpl; intros; [lia | auto]. Qed.
Lemma dot_zeros a N : dot a (repeat 0 N) = 0.
Proof. revert N; induction a; destruct N; simpl; auto. rewrite IHa. ring. Qed.

Lemma reduce_wfr N p o : length (fst p) = S N -> length o = N -> (forall r, In r o -> length (fst r) = S N) ->
  wfr N (map (reduce p) o).
Proof.
  intros Hp Ho Hr. split; [rewrite map_length; auto | ].
  intros q Hq. apply in_map_iff in Hq. destruct Hq as (r & <- & Hin). simpl.
  specialize (Hr r Hin). destruct (fst p), (fst r); simpl in *; try discriminate.
  rewrite axpy_length; lia.
Qed.
Lemma reduce_dot N p r w z : length (fst p) = S N -> length (fst r) = S N -> hd 0 (fst p) <> 0 ->
  dot (fst p) (w :: z) = snd p ->
  (dot (fst r) (w :: z) = snd r <-> dot (fst (reduce p r)) z = snd (reduce p r)).
Proof.
  intros Hp Hr Hn Ep. rewrite dot_hd_tl in Ep by lia. rewrite dot_hd_tl by lia. unfold reduce. simpl.
  rewrite dot_axpy by (destruct (fst p), (fst r); simpl in *; try discriminate; lia).
  set (a := hd 0 (fst p)) in *. set (b := hd 0 (fst r)) in *.
  assert (Ew : w = (snd p - dot (tl (fst p)) z) / a) by (rewrite <- Ep; field; auto).
  split; intros H.
  - rewrite <- H, <- Ep. field; auto.
  - rewrite <- Ep in H. apply (Rmult_eq_compat_r 1) in H. 
    assert (b * w = b / a * (a * w)) by (field; auto). unfold Rdiv in *. lra.
Qed.

Theorem gauss_spec N : forall rows, wfr N rows ->
  match gauss N rows with
  | Some z => sol N rows z /\ (forall z', sol N rows z' -> z' = z)
  | None => exists w, sol N (hom rows) w /\ exists x, In x w /\ x <> 0
  end.
Proof.
  induction N as [ | N IH]; intros rows [Hl Hw].
  - destruct rows; [ | discriminate]. simpl. split; [split; simpl; tauto | ].
    intros z' [L _]. destruct z'; [auto | discriminate].
  - cbn [gauss]. destruct (find_pivot rows) as [[p o] | ] eqn:Ef.
    + destruct (find_pivot_Some _ _ _ Ef) as (Hn & Hin & Hlen).
      assert (Lp : length (fst p) = S N) by (apply Hw, Hin; auto).
      assert (Lo : forall r, In r o -> length (fst r) = S N) by (intros; apply Hw, Hin; auto).
      assert (Wo : wfr N (map (reduce p) o)) by (apply reduce_wfr; auto; rewrite Hl in Hlen; injection Hlen; auto).
      specialize (IH _ Wo). destruct (gauss N (map (reduce p) o)) as [z | ].
      * destruct IH as [[Lz Sz] Uz]. split.
        -- split; [simpl; auto | ]. set (w := (snd p - dot (tl (fst p)) z) / hd 0 (fst p)).
           assert (Ep : dot (fst p) (w :: z) = snd p) by (rewrite dot_hd_tl by lia; unfold w; field; auto).
           intros r Hr. apply Hin in Hr. destruct Hr as [-> | Hr]; auto.
           apply (reduce_dot N p r w z); auto. apply Sz. apply in_map; auto.
        -- intros z' [L' S']. destruct z' as [ | w z']; [discriminate | ].
           assert (Ep : dot (fst p) (w :: z') = snd p) by (apply S', Hin; auto).
           assert (z' = z) as ->.
           { apply Uz. split; [simpl in L'; auto | ]. intros q Hq. apply in_map_iff in Hq.
             destruct Hq as (r & <- & Hr). apply (reduce_dot N p r w z'); auto. apply S', Hin; auto. }
           f_equal. rewrite <- Ep, dot_hd_tl by lia. field; auto.
      * destruct IH as (w & [Lw Sw] & x & Hx & Hx0).
        exists (- dot (tl (fst p)) w / hd 0 (fst p) :: w). split; [ | exists x; simpl; auto].
        split; [simpl; auto | ]. set (u := - dot (tl (fst p)) w / hd 0 (fst p)).
        assert (Ep : dot (fst p) (u :: w) = 0) by (rewrite dot_hd_tl by lia; unfold u; field; auto).
        intros q Hq. apply in_map_iff in Hq. destruct Hq as (r & <- & Hr). simpl.
        apply Hin in Hr. destruct Hr as [-> | Hr]; auto.
        pose proof (reduce_dot N (fst p, 0) (fst r, 0) u w Lp (Lo r Hr) Hn Ep) as [_ H]. apply H. simpl.
        assert (In (fst (reduce p r), 0) (hom (map (reduce p) o))) as HI.
        { apply in_map_iff. exists (reduce p r). split; auto. apply in_map; auto. }
        apply Sw in HI. simpl in HI. rewrite HI. ring.
    + pose proof (find_pivot_None _ Ef) as H0. exists (1 :: repeat 0 N). split.
      * split; [simpl; rewrite repeat_length; auto | ]. intros q Hq. apply in_map_iff in Hq.
        destruct Hq as (r & <- & Hr). simpl. rewrite dot_hd_tl by (rewrite (Hw r Hr); lia).
        rewrite H0, dot_zeros by auto. ring.
      * exists 1. simpl. split; [auto | lra].
Qed.

Lemma dot_sum a b : length a = length b -> dot a b = Sum l < length a, nth l a 0 * nth l b 0.
Proof.
  revert b. induction a as [ | x a IH]; destruct b as [ | y b]; simpl; intros; try discriminate; auto.
  rewrite IH by auto. rewrite <- seq_shift, rsum_map. auto.
Qed.

Theorem gauss_lu_exact : lu_exact gauss_lu.
Proof.
  intros N h g [Hh Hr] Hg. unfold gauss_lu. rewrite Hg.
  assert (W : wfr N (combine h g)).
  { split; [rewrite combine_length; lia | ]. intros [r b] Hin. simpl. apply Hr. apply in_combine_l in Hin. auto. }
  assert (Hd : forall k z, (k < N)%nat -> length z = N -> dot (nth k h []) z = mat_vec N h (fun l => nth l z 0) k).
  { intros k z Hk Hz. assert (L : length (nth k h []) = N) by (apply Hr, nth_In; lia).
    rewrite dot_sum by lia. rewrite L. reflexivity. }
  assert (In_row : forall k, (k < N)%nat -> In (nth k h [], nth k g 0) (combine h g)).
  { intros k Hk. rewrite <- combine_nth by lia. apply nth_In. rewrite combine_length. lia. }
  assert (Row_in : forall r, In r (combine h g) -> exists k, (k < N)%nat /\ r = (nth k h [], nth k g 0)).
  { intros r Hin. destruct (In_nth _ _ ([], 0) Hin) as (k & Hk & E). rewrite combine_length in Hk.
    exists k. split; [lia | ]. rewrite <- E. apply combine_nth. lia. }
  pose proof (gauss_spec N (combine h g) W) as G. destruct (gauss N (combine h g)) as [z | ].
  - destruct G as [[Lz Sz] U]. split; [ | split; auto].
    + intros w Hw k Hk.
      set (z' := map (fun i => nth i z 0 + w i) (seq 0 N)).
      assert (Lz' : length z' = N) by (unfold z'; rewrite map_length, seq_length; auto).
      assert (Nz : forall i, (i < N)%nat -> nth i z' 0 = nth i z 0 + w i).
      { intros i Hi. unfold z'. apply (nth_mk1 N (fun i => nth i z 0 + w i)); auto. }
      assert (E : z' = z).
      { apply U. split; auto. intros r Hin. destruct (Row_in r Hin) as (i & Hi & ->). simpl.
        rewrite Hd by auto. pose proof (Sz _ (In_row i Hi)) as Si. simpl in Si. rewrite Hd in Si by auto.
        rewrite <- Si. specialize (Hw i Hi). unfold mat_vec in *.
        rewrite (Sum_ext _ _ (fun l => @ix2 RNum h i l * nth l z 0 + @ix2 RNum h i l * w l)).
        - rewrite rsum_plus, Hw. ring.
        - intros l Hl'. rewrite Nz by auto. ring. }
      specialize (Nz k Hk). rewrite E in Nz. lra.
    + intros k Hk. rewrite <- Hd by auto. apply (Sz _ (In_row k Hk)).
  - destruct G as (w & [Lw Sw] & x & Hx & Hx0). intros NS.
    destruct (In_nth _ _ 0 Hx) as (k & Hk & E). apply Hx0. rewrite <- E.
    apply (NS (fun l => nth l w 0)); [ | lia].
    intros i Hi. rewrite <- Hd by auto.
    apply (Sw (nth i h [], 0)). apply in_map_iff. exists (nth i h [], nth i g 0). split; auto.
Qed.
