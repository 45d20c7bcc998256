(** C16, C18: the constructors for one and two components, and selecting one or two components of
    a mixture. *)
From Coq Require Import ZArith QArith Reals Lra Lia String List Bool.
From Verif Require Import Num RNum RSum M_Params F_Params M_Eos Samples P_Params.
Import ListNotations.
Local Open Scope R_scope.

(** a pure component never panics, and the parameters of the pair of the component with itself are
    the parameters of the component: no interaction parameter weakens its dispersion *)
Theorem C16_new_pure (pr : pure_record RNum) : 0 <= r_epsilon_k (pr_model pr) -> exists p, new_pure pr = Some p /\
  p_pure_records p = [pr] /\ p_sigma p = [r_sigma (pr_model pr)] /\ p_epsilon_k p = [r_epsilon_k (pr_model pr)] /\
  p_sigma_ij p = [[r_sigma (pr_model pr)]] /\ p_epsilon_k_ij p = [[r_epsilon_k (pr_model pr)]] /\ p_e_k_ij p = [[r_epsilon_k (pr_model pr)]].
Proof.
  intros H. set (e := r_epsilon_k (pr_model pr)) in *. assert (Q : sqrt (e * e) = e) by (apply sqrt_square; auto).
  eexists. split; [unfold new_pure, from_records; cbn; reflexivity | ].
  do 3 (split; [reflexivity | ]). split; [ | split].
  - assert (E : @eq R (nlit (n := RNum) 0.5%Q * (r_sigma (pr_model pr) + r_sigma (pr_model pr))) (r_sigma (pr_model pr))) by (rn; toR; field). exact (f_equal (fun x : R => [[x]]) E).
  - assert (E : @eq R ((nlit (n := RNum) 1%Q - nlit (n := RNum) 0%Q) * sqrt (e * e)) e) by (rewrite Q; rn; toR; ring). exact (f_equal (fun x : R => [[x]]) E).
  - exact (f_equal (fun x : R => [[x]]) Q).
Qed.

(** propane *)
Example C16_new_pure_case : 0 <= r_epsilon_k (pr_model pr_propane) /\ new_pure pr_propane <> None.
Proof. assert (H : 0 <= r_epsilon_k (pr_model pr_propane)) by (cbn; unfold Q2R; cbn; lra). split; [exact H | ]. destruct (C16_new_pure pr_propane H) as (p & E & _). rewrite E. discriminate. Qed.

Section Select.
  Context {K : Num}.
  (** selecting one component of a mixture gives the parameters of that pure component *)
  Theorem C18_subset_one (prs : list (pure_record K)) bin p i pr : from_records prs bin = Some p ->
    nth_error prs i = Some pr -> ix2 bin i i = n0 -> subset p [i] = new_pure pr.
  Proof.
    unfold from_records. destruct (binary_ok _ _); [ | discriminate]. intros [= <-] E B.
    change (subset (from_records_raw prs bin) [i]) with (match subset_records prs [i] with Some q => from_records q (subset_binary bin [i]) | None => None end).
    unfold subset_records. cbn [map]. rewrite E. cbn [collect_opt]. change (subset_binary bin [i]) with [[ix2 bin i i]]. rewrite B. reflexivity.
  Qed.
  (** selecting two components gives the binary mixture with their interaction parameter *)
  Theorem C18_subset_two (prs : list (pure_record K)) bin p i j pi pj : from_records prs bin = Some p ->
    nth_error prs i = Some pi -> nth_error prs j = Some pj -> ix2 bin i i = n0 -> ix2 bin j j = n0 -> ix2 bin j i = ix2 bin i j ->
    subset p [i; j] = new_binary pi pj (Some (ix2 bin i j)).
  Proof.
    unfold from_records. destruct (binary_ok _ _); [ | discriminate]. intros [= <-] E E' B B' Sy.
    change (subset (from_records_raw prs bin) [i; j]) with (match subset_records prs [i; j] with Some q => from_records q (subset_binary bin [i; j]) | None => None end).
    unfold subset_records. cbn [map]. rewrite E, E'. cbn [collect_opt]. change (subset_binary bin [i; j]) with [[ix2 bin i i; ix2 bin i j]; [ix2 bin j i; ix2 bin j j]]. rewrite B, B', Sy. reflexivity.
  Qed.
End Select.

(** dimethyl ether, carbon dioxide and water with one non-zero interaction parameter *)
Example C18_subset_case : exists p, from_records (K := RNum) sample_prs [[0; 1; 0]; [1; 0; 0]; [0; 0; 0]] = Some p /\
  subset p [2%nat] = new_pure pr_water /\ subset p [1%nat; 0%nat] = new_binary pr_co2 pr_dme (Some 1).
Proof.
  assert (Z : @n0 RNum = 0) by (rn; toR; lra).
  eexists. split; [unfold from_records; cbn [binary_ok length sample_prs Nat.leb forallb andb]; reflexivity | ]. split.
  - apply (C18_subset_one sample_prs [[0; 1; 0]; [1; 0; 0]; [0; 0; 0]]); [reflexivity | reflexivity | symmetry; exact Z].
  - apply (C18_subset_two sample_prs [[0; 1; 0]; [1; 0; 0]; [0; 0; 0]]); try reflexivity; symmetry; exact Z.
Qed.
Print Assumptions C16_new_pure.
Print Assumptions C18_subset_one.
Print Assumptions C18_subset_two.
