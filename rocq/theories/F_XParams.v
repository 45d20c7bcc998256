(** Building parameters over the extended reals from finite physical records. *)
From Coq Require Import ZArith QArith Reals Lra Lia List Bool.
From Verif Require Import Num RNum RSum Tables M_Params F_Params M_Eos F_Transfer XNum.
Import ListNotations.
Local Open Scope R_scope.
Set Bullet Behavior "Strict Subproofs".

Notation xl := (@lift1 XNum Fin).
Lemma ix_x (l : list R) i : @ix XNum (xl l) i = Fin (@ix RNum l i).
Proof. unfold ix, lift1. revert i. induction l; destruct i; cbn; auto. Qed.
Lemma ix2_x (l : list (list R)) i j : @ix2 XNum (@lift2 XNum Fin l) i j = Fin (@ix2 RNum l i j).
Proof.
  unfold ix2, lift2. replace (nth i (map xl l) []) with (xl (nth i l [])).
  - apply ix_x.
  - revert i. induction l; destruct i; auto. apply IHl.
Qed.
Lemma mk1_x n (f : nat -> R) g : (forall i, (i < n)%nat -> g i = Fin (f i)) -> mk1 n g = xl (mk1 n f).
Proof.
  intros H. unfold mk1, lift1. rewrite map_map. apply map_ext_in. intros i Hi. apply in_seq in Hi. apply H. lia.
Qed.
Lemma mk2_x n m (f : nat -> nat -> R) g : (forall i j, (i < n)%nat -> (j < m)%nat -> g i j = Fin (f i j)) ->
  mk2 n m g = @lift2 XNum Fin (mk2 n m f).
Proof.
  intros H. unfold mk2, lift2. unfold mk1 at 1 3. rewrite map_map. apply map_ext_in. intros i Hi.
  apply in_seq in Hi. apply mk1_x. intros. apply H; lia.
Qed.
Lemma nonzero_x (l : list R) : nonzero_comp (K := XNum) (xl l) = nonzero_comp (K := RNum) l.
Proof.
  unfold nonzero_comp. replace (length (xl l)) with (length l) by (symmetry; apply map_length). apply filter_ext. intros i.
  rewrite ix_x. reflexivity.
Qed.
Lemma coeff_x {A B} rows (tl : A -> list R) (tl2 : B -> list xr) (f : A -> B) (l : list (option A)) :
  (forall a, tl2 (f a) = xl (tl a)) ->
  coeff_matrix (K := XNum) rows tl2 (map (lift_opt f) l) = lift_opt (@lift2 XNum Fin) (coeff_matrix (K := RNum) rows tl l).
Proof.
  intros H. unfold coeff_matrix.
  assert (E : existsb (fun o => match o with None => true | Some _ => false end) (map (lift_opt f) l)
    = existsb (fun o => match o with None => true | Some _ => false end) l).
  { induction l as [ | [a | ] l IH]; cbn; auto. }
  rewrite E. destruct (existsb _ l); [reflexivity | ]. cbn [lift_opt]. f_equal. rewrite map_length.
  apply mk2_x. intros r i Hr Hi.
  replace (nth i (map (lift_opt f) l) None) with (lift_opt f (nth i l None)).
  - destruct (nth i l None); cbn [lift_opt]; [rewrite H; apply ix_x | reflexivity].
  - change (@None B) with (lift_opt f None). symmetry. apply map_nth.
Qed.
Lemma collect_x {A B} (f : A -> B) (l : list (option A)) :
  collect_opt (map (lift_opt f) l) = lift_opt (map f) (collect_opt l).
Proof. induction l as [ | [a | ] l IH]; cbn; auto. rewrite IH. destruct (collect_opt l); reflexivity. Qed.
Lemma unwrap_x {A} (get : A -> option R) (l : list A) d :
  map (fun r => unwrap_or (lift_opt Fin (get r)) (Fin d)) l = xl (map (fun r => unwrap_or (get r) d) l).
Proof. unfold lift1. rewrite map_map. apply map_ext. intros r. destruct (get r); reflexivity. Qed.

Lemma params_ext {K : Num} (a b : params K) :
  p_molarweight a = p_molarweight b ->
  p_m a = p_m b ->
  p_sigma a = p_sigma b ->
  p_epsilon_k a = p_epsilon_k b ->
  p_mu a = p_mu b ->
  p_q a = p_q b ->
  p_mu2 a = p_mu2 b ->
  p_q2 a = p_q2 b ->
  p_kappa_ab a = p_kappa_ab b ->
  p_epsilon_k_ab a = p_epsilon_k_ab b ->
  p_na a = p_na b ->
  p_nb a = p_nb b ->
  p_kappa_aibj a = p_kappa_aibj b ->
  p_epsilon_k_aibj a = p_epsilon_k_aibj b ->
  p_k_ij a = p_k_ij b ->
  p_sigma_ij a = p_sigma_ij b ->
  p_epsilon_k_ij a = p_epsilon_k_ij b ->
  p_e_k_ij a = p_e_k_ij b ->
  p_ndipole a = p_ndipole b ->
  p_nquadpole a = p_nquadpole b ->
  p_nassoc a = p_nassoc b ->
  p_dipole_comp a = p_dipole_comp b ->
  p_quadpole_comp a = p_quadpole_comp b ->
  p_assoc_comp a = p_assoc_comp b ->
  p_viscosity a = p_viscosity b ->
  p_diffusion a = p_diffusion b ->
  p_thermal a = p_thermal b ->
  p_pure_records a = p_pure_records b ->
  p_binary_records a = p_binary_records b ->
  p_joback a = p_joback b -> a = b.
Proof. destruct a, b. cbn. intros. subst. reflexivity. Qed.

(** physical record: positive m, sigma, epsilon_k and a non-negative association volume *)
Definition phys_record (r : pure_record RNum) : Prop :=
  0 < r_m (pr_model r) /\ 0 < r_sigma (pr_model r) /\ 0 < r_epsilon_k (pr_model r) /\
  match r_kappa_ab (pr_model r) with Some k => 0 <= k | None => True end.

Definition xrec : pure_record RNum -> pure_record XNum := @lift_pure XNum Fin.
Definition xparams : params RNum -> params XNum := @plift XNum Fin.
Definition xmat (l : list (list R)) : list (list xr) := map (map Fin) l.

Lemma xsqrt_fin r : 0 <= r -> xsqrt (Fin r) = Fin (sqrt r).
Proof. intros. cbn. destruct (Rlt_dec r 0); [lra | reflexivity]. Qed.

Theorem from_records_raw_x prs bin : Forall phys_record prs ->
  @from_records_raw XNum (map xrec prs) (xmat bin) = xparams (@from_records_raw RNum prs bin).
Proof.
  intros H. unfold from_records_raw. cbv zeta. unfold xparams, plift, xmat.
  cbn [p_molarweight p_m p_sigma p_epsilon_k p_mu p_q p_mu2 p_q2 p_kappa_ab p_epsilon_k_ab p_na p_nb p_kappa_aibj
    p_epsilon_k_aibj p_k_ij p_sigma_ij p_epsilon_k_ij p_e_k_ij p_ndipole p_nquadpole p_nassoc p_dipole_comp
    p_quadpole_comp p_assoc_comp p_viscosity p_diffusion p_thermal p_pure_records p_binary_records p_joback].
  rewrite !map_length. rewrite !map_map.
  set (n := length prs).
  set (m := map (fun x => r_m (pr_model x)) prs). set (sigma := map (fun x => r_sigma (pr_model x)) prs).
  set (eps := map (fun x => r_epsilon_k (pr_model x)) prs).
  set (kab := map (fun x => unwrap_or (r_kappa_ab (pr_model x)) (@n0 RNum)) prs).
  assert (Pm : forall i, (i < n)%nat -> 0 < @ix RNum m i /\ 0 < @ix RNum sigma i /\ 0 < @ix RNum eps i /\ 0 <= @ix RNum kab i).
  { intros i Hi. destruct (nth_error prs i) as [r | ] eqn:E; [ | apply nth_error_None in E; unfold n in Hi; lia].
    assert (Hr : phys_record r) by (rewrite Forall_forall in H; apply H; eapply nth_error_In; eauto).
    destruct Hr as (A & B & C & D). unfold ix, m, sigma, eps, kab.
    assert (Enth : forall (f : pure_record RNum -> R), nth i (map f prs) (@n0 RNum) = f r).
    { intros f. apply nth_error_nth. rewrite nth_error_map, E. reflexivity. }
    rewrite !Enth. repeat split; auto. destruct (r_kappa_ab (pr_model r)); cbn; [auto | lra]. }
  assert (Xm : map (fun x => r_m (pr_model (xrec x))) prs = xl m) by (unfold m, lift1; rewrite map_map; reflexivity).
  assert (Xs : map (fun x => r_sigma (pr_model (xrec x))) prs = xl sigma) by (unfold sigma, lift1; rewrite map_map; reflexivity).
  assert (Xe : map (fun x => r_epsilon_k (pr_model (xrec x))) prs = xl eps) by (unfold eps, lift1; rewrite map_map; reflexivity).
  assert (Xk : map (fun x => unwrap_or (r_kappa_ab (pr_model (xrec x))) (@n0 XNum)) prs = xl kab)
    by exact (unwrap_x (fun x : pure_record RNum => r_kappa_ab (pr_model x) : option R) prs 0).
  rewrite Xm, Xs, Xe, Xk.
  set (mu := map (fun x => unwrap_or (r_mu (pr_model x)) (@n0 RNum)) prs).
  assert (Xmu : map (fun x => unwrap_or (r_mu (pr_model (xrec x))) (@n0 XNum)) prs = xl mu)
    by exact (unwrap_x (fun x : pure_record RNum => r_mu (pr_model x) : option R) prs 0).
  set (q := map (fun x => unwrap_or (r_q (pr_model x)) (@n0 RNum)) prs).
  assert (Xq : map (fun x => unwrap_or (r_q (pr_model (xrec x))) (@n0 XNum)) prs = xl q)
    by exact (unwrap_x (fun x : pure_record RNum => r_q (pr_model x) : option R) prs 0).
  set (na := map (fun x => unwrap_or (r_na (pr_model x)) (@n1 RNum)) prs).
  assert (Xna : map (fun x => unwrap_or (r_na (pr_model (xrec x))) (@n1 XNum)) prs = xl na)
    by exact (unwrap_x (fun x : pure_record RNum => r_na (pr_model x) : option R) prs 1).
  set (nb := map (fun x => unwrap_or (r_nb (pr_model x)) (@n1 RNum)) prs).
  assert (Xnb : map (fun x => unwrap_or (r_nb (pr_model (xrec x))) (@n1 XNum)) prs = xl nb)
    by exact (unwrap_x (fun x : pure_record RNum => r_nb (pr_model x) : option R) prs 1).
  set (ek := map (fun x => unwrap_or (r_epsilon_k_ab (pr_model x)) (@n0 RNum)) prs).
  assert (Xek : map (fun x => unwrap_or (r_epsilon_k_ab (pr_model (xrec x))) (@n0 XNum)) prs = xl ek)
    by exact (unwrap_x (fun x : pure_record RNum => r_epsilon_k_ab (pr_model x) : option R) prs 0).
  rewrite Xmu, Xq, Xna, Xnb, Xek.
  assert (K0 : kb_conv (K := XNum) = Fin (kb_conv (K := RNum))).
  { unfold kb_conv. cbn [ndiv nlit XNum]. rewrite xdiv_fin; [reflexivity | ]. lits. lra. }
  assert (Xmu2 : mk1 n (fun i => mu2_of (@ix XNum (xl mu) i) (@ix XNum (xl m) i) (@ix XNum (xl sigma) i) (@ix XNum (xl eps) i))
    = xl (mk1 n (fun i => mu2_of (@ix RNum mu i) (@ix RNum m i) (@ix RNum sigma i) (@ix RNum eps i)))).
  { apply mk1_x. intros i Hi. destruct (Pm i Hi) as (A & B & C & _). rewrite !ix_x. unfold mu2_of. rewrite K0.
    cbn [nmul ndiv XNum RNum xmul]. rewrite xdiv_fin; [reflexivity | ].
    apply Rgt_not_eq. repeat apply Rmult_lt_0_compat; auto. }
  assert (Xq2 : mk1 n (fun i => q2_of (@ix XNum (xl q) i) (@ix XNum (xl m) i) (@ix XNum (xl sigma) i) (@ix XNum (xl eps) i))
    = xl (mk1 n (fun i => q2_of (@ix RNum q i) (@ix RNum m i) (@ix RNum sigma i) (@ix RNum eps i)))).
  { apply mk1_x. intros i Hi. destruct (Pm i Hi) as (A & B & C & _). rewrite !ix_x. unfold q2_of. rewrite K0.
    cbn [nmul ndiv npowi XNum RNum xmul]. rewrite xpowi_fin. cbn [xmul]. rewrite xdiv_fin; [reflexivity | ].
    apply Rgt_not_eq. apply Rmult_lt_0_compat; [apply Rmult_lt_0_compat; [auto | apply pow_lt; auto] | auto]. }
  rewrite Xmu2, Xq2, !nonzero_x.
  apply params_ext; cbn [p_molarweight p_m p_sigma p_epsilon_k p_mu p_q p_mu2 p_q2 p_kappa_ab p_epsilon_k_ab p_na p_nb p_kappa_aibj p_epsilon_k_aibj p_k_ij p_sigma_ij p_epsilon_k_ij p_e_k_ij p_ndipole p_nquadpole p_nassoc p_dipole_comp p_quadpole_comp p_assoc_comp p_viscosity p_diffusion p_thermal p_pure_records p_binary_records p_joback].
  all: try (reflexivity || assumption).
  - unfold lift1. rewrite map_map. reflexivity.
  - apply mk2_x. intros i j Hi Hj. destruct (existsb _ _ && existsb _ _); [ | reflexivity].
    destruct (Pm i Hi) as (_ & Si & _ & Ki). destruct (Pm j Hj) as (_ & Sj & _ & Kj).
    rewrite !ix_x. cbn [nmul ndiv nadd nsqrt npowf nlit XNum RNum xmul xadd].
    assert (0 < @ix RNum sigma i * @ix RNum sigma j) by (apply Rmult_lt_0_compat; auto).
    rewrite !xsqrt_fin by (try apply Rmult_le_pos; lra). cbn [xmul]. rewrite xdiv_fin by lra.
    assert (P3 : Rlit 3 = 3) by reflexivity. assert (P2 : Rlit 2 = 2) by reflexivity.
    unfold xpowf. rewrite P3, P2. destruct (Req_EM_T 3 0); [lra | ].
    match goal with |- context [Rlt_dec 0 ?y] => assert (0 < y) as Y; [ | destruct (Rlt_dec 0 y); [reflexivity | contradiction] ] end.
    apply Rdiv_lt_0_compat; [ | lra]. apply Rmult_lt_0_compat; [lra | apply sqrt_lt_R0; auto].
  - apply mk2_x. intros i j Hi Hj. destruct (existsb _ _ && existsb _ _); [ | reflexivity].
    rewrite !ix_x. reflexivity.
  - apply mk2_x. intros i j Hi Hj. rewrite !ix_x. reflexivity.
  - apply mk2_x. intros i j Hi Hj. rewrite !ix_x.
    change (map (map Fin) bin) with (@lift2 XNum Fin bin). rewrite ix2_x.
    destruct (Pm i Hi) as (_ & _ & Ei & _). destruct (Pm j Hj) as (_ & _ & Ej & _).
    cbn [nmul nsub nsqrt nlit XNum xmul]. rewrite xsqrt_fin by (apply Rmult_le_pos; lra). reflexivity.
  - apply mk2_x. intros i j Hi Hj. rewrite !ix_x.
    destruct (Pm i Hi) as (_ & _ & Ei & _). destruct (Pm j Hj) as (_ & _ & Ej & _).
    cbn [nmul nsqrt XNum xmul]. rewrite xsqrt_fin by (apply Rmult_le_pos; lra). reflexivity.
  - etransitivity; [ | apply (coeff_x 4 (@l4 RNum) (@l4 XNum) (@lift4 XNum Fin))].
    + rewrite map_map. reflexivity.
    + intros [[[? ?] ?] ?]. reflexivity.
  - etransitivity; [ | apply (coeff_x 5 (@l5 RNum) (@l5 XNum) (@lift5 XNum Fin))].
    + rewrite map_map. reflexivity.
    + intros [[[[? ?] ?] ?] ?]. reflexivity.
  - etransitivity; [ | apply (coeff_x 4 (@l4 RNum) (@l4 XNum) (@lift4 XNum Fin))].
    + rewrite map_map. reflexivity.
    + intros [[[? ?] ?] ?]. reflexivity.
  - rewrite <- collect_x, map_map. reflexivity.
Qed.

Theorem from_records_x prs bin : Forall phys_record prs ->
  @from_records XNum (map xrec prs) (xmat bin) = lift_opt xparams (@from_records RNum prs bin).
Proof.
  intros H. unfold from_records. rewrite map_length.
  assert (E : binary_ok (K := XNum) (length prs) (xmat bin) = binary_ok (K := RNum) (length prs) bin).
  { unfold binary_ok, xmat. rewrite map_length. f_equal.
    induction bin as [ | r bin IH]; cbn; [reflexivity | ]. rewrite map_length. f_equal. exact IH. }
  rewrite E. destruct (binary_ok (K := RNum) (length prs) bin); cbn [lift_opt]; [ | reflexivity]. f_equal. apply from_records_raw_x; auto.
Qed.

