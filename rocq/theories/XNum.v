(** Instance of the number structure over the real numbers extended by the special values of
    IEEE 754: plus and minus infinity and NaN.

    Arithmetic on finite values is exact (no rounding, no overflow); every operation outside
    its domain returns what an f64 returns: 0/0, inf - inf, inf/inf, 0 * inf, the logarithm or
    square root of a negative number give NaN, x/0 an infinity, ln 0 minus infinity; NaN
    propagates; every comparison with NaN is false.  Simplifications: the sign of zero is not
    tracked (x/0 takes the sign of x), and [powf] of a negative base is NaN also for integral
    exponents (no such use in the code). *)
From Coq Require Import ZArith QArith Reals Lra List Bool.
From Verif Require Import Num RNum RSum Tables M_Params F_Params M_Eos F_Transfer.
Import ListNotations.
Local Open Scope R_scope.

Inductive xr := Fin (r : R) | PInf | NInf | NaN.

(** infinity with the sign of [r]; NaN for zero *)
Definition sgn_inf (r : R) : xr := if Rlt_dec 0 r then PInf else if Rlt_dec r 0 then NInf else NaN.
Definition xopp (a : xr) : xr := match a with Fin r => Fin (- r) | PInf => NInf | NInf => PInf | NaN => NaN end.
Definition xadd (a b : xr) : xr :=
  match a, b with
  | NaN, _ | _, NaN => NaN
  | Fin r, Fin s => Fin (r + s)
  | Fin _, i => i
  | i, Fin _ => i
  | PInf, PInf => PInf | NInf, NInf => NInf
  | PInf, NInf | NInf, PInf => NaN
  end.
Definition xsub (a b : xr) : xr := xadd a (xopp b).
Definition xmul (a b : xr) : xr :=
  match a, b with
  | NaN, _ | _, NaN => NaN
  | Fin r, Fin s => Fin (r * s)
  | Fin r, PInf | PInf, Fin r => sgn_inf r
  | Fin r, NInf | NInf, Fin r => sgn_inf (- r)
  | PInf, PInf | NInf, NInf => PInf
  | PInf, NInf | NInf, PInf => NInf
  end.
Definition xdiv (a b : xr) : xr :=
  match a, b with
  | NaN, _ | _, NaN => NaN
  | Fin r, Fin s => if Req_EM_T s 0 then sgn_inf r else Fin (r / s)
  | Fin _, (PInf | NInf) => Fin 0
  | PInf, Fin s => if Req_EM_T s 0 then PInf else sgn_inf s
  | NInf, Fin s => if Req_EM_T s 0 then NInf else sgn_inf (- s)
  | (PInf | NInf), (PInf | NInf) => NaN
  end.
Fixpoint xpowi (a : xr) (n : nat) : xr := match n with O => Fin 1 | S k => xmul a (xpowi a k) end.
Definition xexp (a : xr) : xr := match a with Fin r => Fin (exp r) | PInf => PInf | NInf => Fin 0 | NaN => NaN end.
Definition xln (a : xr) : xr :=
  match a with
  | Fin r => if Rlt_dec 0 r then Fin (ln r) else if Req_EM_T r 0 then NInf else NaN
  | PInf => PInf | NInf | NaN => NaN
  end.
Definition xsqrt (a : xr) : xr :=
  match a with Fin r => if Rlt_dec r 0 then NaN else Fin (sqrt r) | PInf => PInf | NInf | NaN => NaN end.
Definition xpowf (a b : xr) : xr :=
  match a, b with
  | _, Fin y => if Req_EM_T y 0 then Fin 1 else
      match a with
      | Fin x => if Rlt_dec 0 x then Fin (Rpowf x y)
                 else if Rlt_dec x 0 then NaN else if Rlt_dec 0 y then Fin 0 else PInf
      | PInf => if Rlt_dec 0 y then PInf else Fin 0
      | _ => NaN
      end
  | _, _ => NaN
  end.
Definition xltb (a b : xr) : bool :=
  match a, b with
  | NaN, _ | _, NaN => false
  | Fin r, Fin s => Rltb r s
  | PInf, _ => false | _, NInf => false
  | NInf, _ => true | _, PInf => true
  end.
Definition xeqb (a b : xr) : bool :=
  match a, b with
  | Fin r, Fin s => Reqb r s | PInf, PInf => true | NInf, NInf => true | _, _ => false
  end.
(** f64::min ignores a NaN argument *)
Definition xmin (a b : xr) : xr :=
  match a, b with
  | NaN, c | c, NaN => c
  | Fin r, Fin s => Fin (Rmin r s)
  | _, _ => if xltb b a then b else a
  end.
Definition is_fin (a : xr) : Prop := exists r, a = Fin r.

Definition XNum : Num :=
  {| car := xr; nlit := fun q => Fin (Rlit q); npi := Fin PI;
     nadd := xadd; nsub := xsub; nmul := xmul; ndiv := xdiv; nopp := xopp; nrecip := xdiv (Fin 1);
     npowi := xpowi; npowf := xpowf; nexp := xexp; nexpm1 := fun a => xsub (xexp a) (Fin 1);
     nln := xln; nln1p := fun a => xln (xadd (Fin 1) a); nsqrt := xsqrt;
     ncbrt := fun a => match a with Fin r => Fin (Rcbrt r) | _ => a end;
     nsin := fun a => match a with Fin r => Fin (sin r) | _ => NaN end;
     nmin := xmin;
     nabs := fun a => match a with Fin r => Fin (Rabs r) | NaN => NaN | _ => PInf end;
     nre := fun a => a; nltb := xltb; neqb := xeqb;
     nisnan := fun a => match a with NaN => true | _ => false end; nderiv := 0 |}.

Lemma xpowi_fin r n : xpowi (Fin r) n = Fin (r ^ n).
Proof. induction n; cbn; [reflexivity | ]. rewrite IHn. reflexivity. Qed.
Lemma sgn_inf_0 : sgn_inf 0 = NaN.
Proof. unfold sgn_inf. destruct (Rlt_dec 0 0); lra || reflexivity. Qed.
Lemma sgn_inf_pos r : 0 < r -> sgn_inf r = PInf.
Proof. intros. unfold sgn_inf. destruct (Rlt_dec 0 r); lra || reflexivity. Qed.
Lemma sgn_inf_neg r : r < 0 -> sgn_inf r = NInf.
Proof. intros. unfold sgn_inf. destruct (Rlt_dec 0 r); [lra | ]. destruct (Rlt_dec r 0); lra || reflexivity. Qed.
Lemma xdiv_fin r s : s <> 0 -> xdiv (Fin r) (Fin s) = Fin (r / s).
Proof. intros. cbn. destruct (Req_EM_T s 0); [contradiction | reflexivity]. Qed.

(** Pade term of the polar contributions, by cases *)
Lemma pade_x a b v : @pade XNum (Fin a) (Fin b) (Fin v) =
  if Req_EM_T (a - b) 0 then
    if Req_EM_T a 0 then Fin (a * v) else if Req_EM_T v 0 then Fin (a * v) else sgn_inf v
  else Fin (a * a / (a - b) * v).
Proof.
  unfold pade. cbn [nmul ndiv nsub nisnan XNum xmul xsub xadd xopp].
  change (a + - b) with (a - b). unfold xdiv. destruct (Req_EM_T (a - b) 0) as [E | E]; [ | reflexivity].
  destruct (Req_EM_T a 0) as [-> | A].
  - rewrite Rmult_0_l, sgn_inf_0. reflexivity.
  - rewrite sgn_inf_pos by nra. destruct (Req_EM_T v 0) as [-> | V].
    + cbn. rewrite sgn_inf_0. reflexivity.
    + cbn. unfold sgn_inf. destruct (Rlt_dec 0 v); [reflexivity | ]. destruct (Rlt_dec v 0); [reflexivity | lra].
Qed.

(** every operation agrees with the real one where that is regular *)
Definition XTransfer {Pt : Type} (x0 : Pt) : Transfer XNum x0.
Proof.
  refine (mkTransfer _ XNum x0 (fun f a => a = Fin (f x0)) Fin
    (fun f g => f x0 <> g x0 \/ f x0 = 0) (fun _ _ => True) _ _ _ _ _ _ _ _ _ _ _ _ _ _ _ _ _ _ _ _).
  all: intros; try reflexivity.
  - subst. reflexivity.
  - subst. reflexivity.
  - subst. reflexivity.
  - subst. reflexivity.
  - subst. cbn. destruct (Req_EM_T (g x0) 0); [contradiction | reflexivity].
  - subst. cbn. destruct (Req_EM_T (f x0) 0); [contradiction | ]. f_equal. unfold Rdiv. ring.
  - subst. cbn. apply xpowi_fin.
  - subst. reflexivity.
  - subst. reflexivity.
  - subst. cbn. destruct (Rlt_dec 0 (f x0)); [reflexivity | contradiction].
  - subst. cbn. destruct (Rlt_dec 0 (1 + f x0)); [reflexivity | contradiction].
  - subst. cbn. destruct (Rlt_dec (f x0) 0); [lra | reflexivity].
  - subst. reflexivity.
  - subst. reflexivity.
  - subst. reflexivity.
  - rewrite H0. destruct (@nltb RNum (f x0) (g x0)); reflexivity.
  - subst. change (@pade XNum (Fin (f x0)) (Fin (g x0)) (Fin (h x0)) = Fin (@pade RNum (f x0) (g x0) (h x0))).
    rewrite pade_x. unfold pade. cbn [nmul ndiv nsub nisnan RNum].
    destruct (Req_EM_T (f x0 - g x0) 0) as [E | E].
    + destruct H2 as [C | C]; [lra | ]. rewrite C in *.
      destruct (Req_EM_T 0 0); [ | lra]. f_equal. unfold Rdiv. ring.
    + reflexivity.
Defined.
