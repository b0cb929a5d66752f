(* What is assumed about rounded arithmetic, and the values of floating point numbers; independent of the loops of
   Model_Float. *)
From Coq Require Import ZArith Reals Floats.SpecFloat.
From Flocq Require Import Core.Zaux Core.Defs IEEE754.BinarySingleNaN.
From Verif Require Import Model_Base Model_Float.
Open Scope R_scope.

(* x is close to the exact result r: relative error u, absolute error e (for results near zero) *)
Definition close (u e r x : R) : Prop := Rabs (x - r) <= u * Rabs r + e.

(* the whole number between r and zero that is nearest to r *)
Definition truncates (r : R) (z : Z) : Prop := (0 <= r -> IZR z <= r < IZR z + 1) /\ (r <= 0 -> IZR z - 1 < r <= IZR z).

(* fval and dval are the real values of floats and doubles; None for infinities and NaN.  As long as the exact result is
   not above B, each operation returns a number close to it: relative error u for floats, v for doubles, absolute error e.
   Small integers are exact, a float converts to a double without error, a change of sign is exact, and a float that fits
   an int converts by dropping its fraction. *)
Record rounded (F : arith) (fval : fl F -> option R) (dval : db F -> option R) (u v e B : R) : Prop := {
  r_fz_exact : forall z, (Z.abs z <= 2 ^ 24)%Z -> fval (fz F z) = Some (IZR z);
  r_dz_exact : forall z, (Z.abs z <= 2 ^ 53)%Z -> dval (dz F z) = Some (IZR z);
  r_fz : forall z, Rabs (IZR z) <= B -> exists x, fval (fz F z) = Some x /\ close u e (IZR z) x;
  r_fd : forall a r, fval a = Some r -> dval (fd F a) = Some r;
  r_df : forall a r, dval a = Some r -> Rabs r <= B -> exists x, fval (df F a) = Some x /\ close u e r x;
  r_dadd : forall a b r s, dval a = Some r -> dval b = Some s -> Rabs (r + s) <= B -> exists x, dval (dadd F a b) = Some x /\ close v e (r + s) x;
  r_dsub : forall a b r s, dval a = Some r -> dval b = Some s -> Rabs (r - s) <= B -> exists x, dval (dsub F a b) = Some x /\ close v e (r - s) x;
  r_dmul : forall a b r s, dval a = Some r -> dval b = Some s -> Rabs (r * s) <= B -> exists x, dval (dmul F a b) = Some x /\ close v e (r * s) x;
  r_ddiv : forall a b r s, dval a = Some r -> dval b = Some s -> s <> 0 -> Rabs (r / s) <= B -> exists x, dval (ddiv F a b) = Some x /\ close v e (r / s) x;
  r_dneg : forall a r, dval a = Some r -> dval (dneg F a) = Some (- r);
  r_dsqrt : forall a r, dval a = Some r -> 0 <= r -> Rabs (sqrt r) <= B -> exists x, dval (dsqrt F a) = Some x /\ close v e (sqrt r) x;
  r_fadd : forall a b r s, fval a = Some r -> fval b = Some s -> Rabs (r + s) <= B -> exists x, fval (fadd F a b) = Some x /\ close u e (r + s) x;
  r_fmul : forall a b r s, fval a = Some r -> fval b = Some s -> Rabs (r * s) <= B -> exists x, fval (fmul F a b) = Some x /\ close u e (r * s) x;
  r_fdiv : forall a b r s, fval a = Some r -> fval b = Some s -> s <> 0 -> Rabs (r / s) <= B -> exists x, fval (fdiv F a b) = Some x /\ close u e (r / s) x;
  r_ftoz : forall a r, fval a = Some r -> Rabs r <= IZR (2 ^ 30) -> exists z, ftoz F a = Ret z /\ truncates r z
}.

(* the value of a number of the IEEE format with prec bits and exponents below emax *)
Definition sf_val (prec emax : Z) (x : spec_float) : option R :=
  if (valid_binary prec emax x && is_finite_SF x)%bool then Some (SF2R radix2 x) else None.
Definition val32 : spec_float -> option R := sf_val 24 128.
Definition val64 : spec_float -> option R := sf_val 53 1024.
