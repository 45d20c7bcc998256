(** Concrete parameter sets (values of src/parameters.rs 678-850 and of the parameter files)
    and states, used to show that the hypotheses of the theorems can be met. *)
From Coq Require Import ZArith QArith Reals Lra Lia List Bool String.
From Verif Require Import Num RNum RSum M_Params F_Params M_Eos Spec F_Spec F_SpecAssoc F_Contrib.
Import ListNotations.
Local Open Scope R_scope.

Definition named (s : string) : identifier := mkIdent None (Some s) None None None None.

Definition pr_propane : pure_record RNum :=
  @mkPure RNum (named "propane") (44.0962) (@mkRec RNum (2.001829) (3.618353) (208.1101)
    None None None None None None
    (Some (-0.8013, -1.9972, -0.2907, -0.0467))
    (Some (-0.675163251512047, 0.3212017677695878, 0.100175249144429, 0, 0))
    (Some (-0.15348, -0.6388, 1.21342, -0.01664))) None.
Definition pr_butane : pure_record RNum :=
  @mkPure RNum (named "butane") (58.123) (@mkRec RNum (2.331586) (3.708601) (222.8774)
    None None None None None None None None None) None.
Definition pr_dme : pure_record RNum :=
  @mkPure RNum (named "dimethyl-ether") (46.0688) (@mkRec RNum (2.2634) (3.2723) (210.29)
    (Some 1.3) None None None None None None None None) None.
Definition pr_co2 : pure_record RNum :=
  @mkPure RNum (named "carbon-dioxide") (44.0098) (@mkRec RNum (1.5131) (3.1869) (163.333)
    None (Some 4.4) None None None None None None None) None.
Definition pr_water : pure_record RNum :=
  @mkPure RNum (named "water") (18.0152) (@mkRec RNum (1.065587) (3.000683) (366.5121)
    None None (Some 0.034867983) (Some 2500.6706) None None None None None) None.
Definition pr_methanol : pure_record RNum :=
  @mkPure RNum (named "methanol") (32.042) (@mkRec RNum (1.5255) (3.23) (188.9)
    None None (Some 0.035176) (Some 2899.5) None None None None None) None.
(** a second quadrupolar species (nitrogen-like) of a different diameter *)
Definition pr_n2 : pure_record RNum :=
  @mkPure RNum (named "nitrogen") (28.01) (@mkRec RNum (1.1504) (3.3848) (91.4)
    None (Some 1.43) None None None None None None None) None.

Definition zeros (n : nat) : list (list R) := mk2 n n (fun _ _ => 0).

(** dipolar + quadrupolar + associating *)
Definition sample_prs : list (pure_record RNum) := [pr_dme; pr_co2; pr_water].
Definition sample_bin : list (list R) :=
  [[0; 0.01; -0.02]; [0.01; 0; 0.03]; [-0.02; 0.03; 0]].
Definition sample : params RNum := from_records_raw sample_prs sample_bin.
Lemma sample_ok : from_records sample_prs sample_bin = Some sample.
Proof. reflexivity. Qed.

Ltac comps := let i := fresh "i" in let H := fresh "H" in
  intros i H; cbn in H;
  repeat (destruct i as [ | i]; [cbn; try lra; try (repeat split; lra) | ]); try lia.

Lemma sample_phys : phys sample.
Proof. intros i Hi. cbn in Hi. destruct i as [ | [ | [ | i]]]; cbn; try lra; lia. Qed.

(** sufficient condition for the packing fraction to be below one: the sigma-based volume *)
Lemma phys_state_intro p t v moles : phys p -> 0 < t -> 0 < v ->
  List.length moles = List.length (p_m p) ->
  (forall i, (i < List.length (p_m p))%nat -> 0 <= nth i moles 0) ->
  (exists i, (i < List.length (p_m p))%nat /\ 0 < nth i moles 0) ->
  4 * (Sum i < List.length (p_m p), nth i moles 0 * @ix RNum (p_m p) i * @ix RNum (p_sigma p) i ^ 3) < 6 * v ->
  phys_state p t v moles.
Proof.
  intros Hph Ht Hv Hl Hn He Hb. constructor; auto.
  unfold Eta, Zeta. set (n := List.length (p_m p)) in *. change (N (mix_of p)) with n.
  assert (D : forall i, (i < n)%nat -> 0 < Di (mix_of p) t i < @ix RNum (p_sigma p) i).
  { intros i Hi. split; [apply Di_pos; auto | ].
    destruct (Hph i Hi) as (_ & Hs & He'). unfold Di; mx.
    pose proof (exp_pos (-3 * @ix RNum (p_epsilon_k p) i / t)). nra. }
  assert (B : (Sum i < n, nth i moles 0 / v * M (mix_of p) i * Di (mix_of p) t i ^ 3)
     <= (Sum i < n, nth i moles 0 * @ix RNum (p_m p) i * @ix RNum (p_sigma p) i ^ 3) * / v).
  { rewrite <- rsum_scal_r. apply rsum_le. intros i Hi. apply seq_in in Hi.
    change (M (mix_of p) i) with (@ix RNum (p_m p) i).
    destruct (Hph i Hi) as (Hm & _ & _).
    assert (0 < / v) by (apply Rinv_0_lt_compat; auto).
    assert (0 <= nth i moles 0 * @ix RNum (p_m p) i * / v).
    { apply Rmult_le_pos; [apply Rmult_le_pos; [auto | lra] | lra]. }
    replace (nth i moles 0 / v * @ix RNum (p_m p) i * Di (mix_of p) t i ^ 3) with
      (nth i moles 0 * @ix RNum (p_m p) i * / v * Di (mix_of p) t i ^ 3) by (unfold Rdiv; ring).
    replace (nth i moles 0 * @ix RNum (p_m p) i * @ix RNum (p_sigma p) i ^ 3 * / v) with
      (nth i moles 0 * @ix RNum (p_m p) i * / v * @ix RNum (p_sigma p) i ^ 3) by ring.
    apply Rmult_le_compat_l; auto. apply pow_incr. destruct (D i Hi); lra. }
  set (S := Sum i < n, nth i moles 0 * @ix RNum (p_m p) i * @ix RNum (p_sigma p) i ^ 3) in *.
  set (S' := Sum i < n, nth i moles 0 / v * M (mix_of p) i * Di (mix_of p) t i ^ 3) in *.
  assert (0 <= S').
  { apply rsum_nonneg. intros i Hi. apply seq_in in Hi.
    apply Rmult_le_pos; [apply Rmult_le_pos | ].
    - apply Rmult_le_pos; [auto | left; apply Rinv_0_lt_compat; auto].
    - left; apply Hph; auto.
    - left. apply pow_lt, D; auto. }
  assert (PI / 6 <= 4 / 6) by (pose proof PI_4; lra).
  assert (PI / 6 * S' <= 4 / 6 * S') by (apply Rmult_le_compat_r; auto).
  assert (4 * (S * / v) < 6).
  { apply Rmult_lt_reg_r with v; auto.
    replace (4 * (S * / v) * v) with (4 * S) by (field; lra). lra. }
  lra.
Qed.

(** a liquid-like state of the sample mixture *)
Lemma sample_state : phys_state sample 350 1000 [1; 2; 3].
Proof.
  apply phys_state_intro; try lra; auto using sample_phys.
  - intros i Hi. cbn in Hi. destruct i as [ | [ | [ | i]]]; cbn; try lra; lia.
  - exists 0%nat. cbn. split; [lia | lra].
  - cbn. lra.
Qed.
