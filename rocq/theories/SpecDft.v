(** Published expressions of the functional contributions in a non-uniform fluid, over the real
    numbers and independent of the Rust code.

    Sources: Roth et al. 2002 / Yu & Wu 2002 (White Bear), Rosenfeld et al. 1997
    (antisymmetrised version), Tripathi & Chapman 2005 (chain), Yu & Wu 2002 and Mairhofer &
    Gross 2018 (association). *)
From Coq Require Import ZArith QArith Reals List.
From Verif Require Import RNum Tables RSum Spec.
Import ListNotations.
Local Open Scope R_scope.

Definition dot (dim : nat) (a b : nat -> R) : R := Sum k < dim, a k * b k.

(* ------------------------------------------------------------ fundamental measure theory *)

(** third term without its dependence on the vector densities *)
Definition third (w3 : R) : R := (w3 + (1 - w3) ^ 2 * ln (1 - w3)) / (36 * PI * w3 ^ 2 * (1 - w3) ^ 2).

Section Fmt.
  Variables (dim : nat) (w0 w1 w2 w3 : R) (v1 v2 : nat -> R).
  Definition white_bear : R :=
    - w0 * ln (1 - w3) + (w1 * w2 - dot dim v1 v2) / (1 - w3)
    + (w2 ^ 3 - 3 * w2 * dot dim v2 v2) * third w3.
  (** xi = |v2| / w2 *)
  Definition antisymmetrised : R :=
    - w0 * ln (1 - w3) + (w1 * w2 - dot dim v1 v2) / (1 - w3)
    + w2 ^ 3 * (1 - dot dim v2 v2 / w2 ^ 2) ^ 3 * third w3.
End Fmt.

(* --------------------------------------------------------------------------------- chain *)

(** contact value of the pair correlation function from the moments z2 and z3 *)
Definition contact (d z2 z3 : R) : R :=
  1 / (1 - z3) + 3 / 2 * d * z2 / (1 - z3) ^ 2 + 1 / 2 * d ^ 2 * z2 ^ 2 / (1 - z3) ^ 3.
(** of the pure fluid, Carnahan & Starling *)
Definition contact_cs (eta : R) : R := (1 - eta / 2) / (1 - eta) ^ 3.

(* --------------------------------------------------------------------------- association *)

Section Assoc.
  Variables (X : mixture) (T : R).
  Variables (dim : nat) (n0 : nat -> R) (v2 : nat -> nat -> R) (n3 : R).

  Definition n2i (i : nat) : R := M X i * PI * Di X T i ^ 2 * n0 i.
  (** one minus the squared ratio of vector and scalar density: of one component, of all *)
  Definition xi_i (i : nat) : R := 1 - dot dim (fun k => v2 k i) (fun k => v2 k i) / n2i i ^ 2.
  Definition n2s : R := Sum i < N X, n2i i.
  Definition xi_s : R := 1 - dot dim (fun k => Sum i < N X, v2 k i) (fun k => Sum i < N X, v2 k i) / n2s ^ 2.
  (** contact value in a non-uniform fluid *)
  Definition Yij (i j : nat) : R :=
    let D := Di X T i * Di X T j / (Di X T i + Di X T j) in
    1 / (1 - n3) + D * n2s * xi_s / (2 * (1 - n3) ^ 2) + D ^ 2 * n2s ^ 2 * xi_s / (18 * (1 - n3) ^ 3).
  Definition DeltaD (i j : nat) : R :=
    Yij i j * Sij X i j ^ 3 * Kapij X i j * (exp ((Eab X i + Eab X j) / 2 / T) - 1).
  Definition mass_action_d (xa xb : nat -> R) : Prop :=
    forall i, (i < N X)%nat ->
      xa i * (1 + Sum j < N X, n0 j * xi_i j * Nb X j * xb j * DeltaD i j) = 1 /\
      xb i * (1 + Sum j < N X, n0 j * xi_i j * Na X j * xa j * DeltaD i j) = 1.
  Definition f_assoc_d (xa xb : nat -> R) : R :=
    Sum i < N X, n0 i * xi_i i * (Na X i * fx (xa i) + Nb X i * fx (xb i)).
End Assoc.
