(** Virial coefficients (tests/properties.rs 43-55, build_wheel/src/eos.rs 65
    [impl_virial_coefficients!]).  The function [second_virial_coefficient] of the external crate
    feos_core evaluates the residual Helmholtz energy of this repository once, at a state of zero
    density whose density carries two infinitesimals, and returns half of their mixed coefficient;
    [third_virial_coefficient] uses a third derivative and divides by three. *)
From Coq Require Import List.
From Verif Require Import Num M_Params M_Eos.
Import ListNotations.

Section Virial.
  Context {K : Num}.
  Local Notation T := (car K).
  Local Infix "*" := nmul.
  (** feos_core StateHD::new_virial(temperature, density, molefracs) (external crate): unit volume,
      partial densities density * x_i, mole fractions as given (so not 0/0 at zero density) *)
  Definition state_virial (t rho : T) (x : list T) : state K :=
    {| s_t := t; s_v := n1;
       s_moles := map (fun d => d * n1) (map (fun xi => rho * xi) x);
       s_rho := map (fun xi => rho * xi) x;
       s_x := x |}.
End Virial.
