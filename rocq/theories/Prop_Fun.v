(* Properties C42 and C43: functions on Sn, Sn/SnFunction.hpp and include/FunctionOnGroup.hpp.
   A function of degree n is a list of n! values; sf_at is the subscript by group element. *)
From Coq Require Import ZArith List Bool Lia Reals Lra.
From Verif Require Import Model_Base Model_Perm Model_Sn Model_Fun.
From Verif Require Import Spec_Perm Spec_Four Spec_Fun.
From Verif Require Import Proof_Base Proof_Perm Proof_PermProps Proof_Fun.
Import ListNotations.
Open Scope Z_scope.

(* g(t u) = f(u), that is g(s) = f(t^-1 s) *)
Theorem C42_left_translate : forall n f t, 1 <= n -> sf_n f = n -> length (sf_v f) = fact (Z.to_nat n) -> is_perm n t ->
  exists g, sf_left_translate f t = Ret g /\ sf_n g = n /\ length (sf_v g) = fact (Z.to_nat n) /\
    forall s u, is_perm n s -> is_perm n u -> composes n t u s -> exists x, sf_at g s = Ret x /\ sf_at f u = Ret x.
Proof. exact left_translate. Qed.
Print Assumptions C42_left_translate.

Theorem C42_right_translate : forall n f t, 1 <= n -> sf_n f = n -> length (sf_v f) = fact (Z.to_nat n) -> is_perm n t ->
  exists g, sf_right_translate f t = Ret g /\ sf_n g = n /\ length (sf_v g) = fact (Z.to_nat n) /\
    forall s u, is_perm n s -> is_perm n u -> composes n u t s -> exists x, sf_at g s = Ret x /\ sf_at f u = Ret x.
Proof. exact right_translate. Qed.
Print Assumptions C42_right_translate.

Theorem C42_inv : forall n f, 1 <= n -> sf_n f = n -> length (sf_v f) = fact (Z.to_nat n) ->
  exists g, sf_inv f = Ret g /\ sf_n g = n /\ length (sf_v g) = fact (Z.to_nat n) /\
    forall s u, is_perm n s -> is_perm n u -> inverse_perms n s u -> exists x, sf_at g s = Ret x /\ sf_at f u = Ret x.
Proof. exact inv_function. Qed.
Print Assumptions C42_inv.

Theorem C42_left_action : forall n f t t', 1 <= n -> sf_n f = n -> length (sf_v f) = fact (Z.to_nat n) -> is_perm n t -> is_perm n t' ->
  exists tt' g h, p_mul t t' = Ret tt' /\ sf_left_translate f t' = Ret g /\ sf_left_translate g t = Ret h /\ sf_left_translate f tt' = Ret h.
Proof. exact left_action. Qed.
Print Assumptions C42_left_action.

(* right translations compose in the opposite order *)
Theorem C42_right_action : forall n f t t', 1 <= n -> sf_n f = n -> length (sf_v f) = fact (Z.to_nat n) -> is_perm n t -> is_perm n t' ->
  exists tt' g h, p_mul t' t = Ret tt' /\ sf_right_translate f t' = Ret g /\ sf_right_translate g t = Ret h /\ sf_right_translate f tt' = Ret h.
Proof. exact right_action. Qed.
Print Assumptions C42_right_action.

Theorem C42_identity : forall n f, 1 <= n -> sf_n f = n -> length (sf_v f) = fact (Z.to_nat n) ->
  exists e, p_identity n = Ret e /\ sf_left_translate f e = Ret f /\ sf_right_translate f e = Ret f.
Proof. exact translate_identity. Qed.
Print Assumptions C42_identity.

Theorem C42_left_right_commute : forall n f t t', 1 <= n -> sf_n f = n -> length (sf_v f) = fact (Z.to_nat n) -> is_perm n t -> is_perm n t' ->
  exists a b h, sf_left_translate f t = Ret a /\ sf_right_translate a t' = Ret h /\ sf_right_translate f t' = Ret b /\ sf_left_translate b t = Ret h.
Proof. exact left_right_commute. Qed.
Print Assumptions C42_left_right_commute.

Theorem C42_inv_involution : forall n f, 1 <= n -> sf_n f = n -> length (sf_v f) = fact (Z.to_nat n) -> exists g, sf_inv f = Ret g /\ sf_inv g = Ret f.
Proof. exact inv_involution. Qed.
Print Assumptions C42_inv_involution.

(* ---- C43 ---- *)
Theorem C43_convolution : forall n f g F G, 1 <= n -> sf_n f = n -> length (sf_v f) = fact (Z.to_nat n) -> sf_n g = n -> length (sf_v g) = fact (Z.to_nat n) ->
  (forall p, is_perm n p -> sf_at f p = Ret (F p)) -> (forall p, is_perm n p -> sf_at g p = Ret (G p)) ->
  exists h, sf_convolve f g = Ret h /\ sf_n h = n /\ length (sf_v h) = fact (Z.to_nat n) /\
    forall s, is_perm n s -> exists x, sf_at h s = Ret x /\ convolution_at n F G s x.
Proof. exact convolution. Qed.
Print Assumptions C43_convolution.

(* the value named by convolution_at is unique *)
Theorem C43_convolution_value : forall n F G s x y, 0 <= n -> is_perm n s -> convolution_at n F G s x -> convolution_at n F G s y -> x = y.
Proof. exact convolution_value. Qed.
Print Assumptions C43_convolution_value.

Theorem C43_associative : forall n f g h, 1 <= n -> sf_n f = n -> length (sf_v f) = fact (Z.to_nat n) -> sf_n g = n -> length (sf_v g) = fact (Z.to_nat n) ->
  sf_n h = n -> length (sf_v h) = fact (Z.to_nat n) ->
  exists fg gh r, sf_convolve f g = Ret fg /\ sf_convolve fg h = Ret r /\ sf_convolve g h = Ret gh /\ sf_convolve f gh = Ret r.
Proof. exact convolution_assoc. Qed.
Print Assumptions C43_associative.

(* linear in the left and in the right argument: k = a f + b f' *)
Theorem C43_bilinear : forall n a b f f' g k, 1 <= n -> (forall x, In x [f; f'; g; k] -> sf_n x = n /\ length (sf_v x) = fact (Z.to_nat n)) ->
  (forall p, is_perm n p -> exists x y, sf_at f p = Ret x /\ sf_at f' p = Ret y /\ sf_at k p = Ret (a * x + b * y)%R) ->
  exists fg f'g kg gf gf' gk, sf_convolve f g = Ret fg /\ sf_convolve f' g = Ret f'g /\ sf_convolve k g = Ret kg /\
    (forall p, is_perm n p -> exists x y, sf_at fg p = Ret x /\ sf_at f'g p = Ret y /\ sf_at kg p = Ret (a * x + b * y)%R) /\
    sf_convolve g f = Ret gf /\ sf_convolve g f' = Ret gf' /\ sf_convolve g k = Ret gk /\
    (forall p, is_perm n p -> exists x y, sf_at gf p = Ret x /\ sf_at gf' p = Ret y /\ sf_at gk p = Ret (a * x + b * y)%R).
Proof. exact convolution_bilinear. Qed.
Print Assumptions C43_bilinear.

Theorem C43_delta_neutral : forall n f d, 1 <= n -> sf_n f = n -> length (sf_v f) = fact (Z.to_nat n) -> sf_n d = n -> length (sf_v d) = fact (Z.to_nat n) ->
  (forall p, is_perm n p -> (forall i, 1 <= i <= n -> img p i = i) -> sf_at d p = Ret 1%R) ->
  (forall p, is_perm n p -> ~ (forall i, 1 <= i <= n -> img p i = i) -> sf_at d p = Ret 0%R) ->
  sf_convolve f d = Ret f /\ sf_convolve d f = Ret f.
Proof. exact convolution_delta. Qed.
Print Assumptions C43_delta_neutral.

(* Non-vacuity: a function on S3 with six different values, translated by the cycle (1 2 3). *)
Definition f3 : sfun := mkFun 3 [1; 2; 3; 4; 5; 6]%R.
Example C42_nonvacuous_hyp : sf_n f3 = 3 /\ length (sf_v f3) = fact (Z.to_nat 3) /\ is_perm 3 [2; 3; 1].
Proof. split; [|split]; [reflexivity|reflexivity|apply (check_is_perm [2; 3; 1]); reflexivity]. Qed.
Example C42_nonvacuous_left : sf_left_translate f3 [2; 3; 1] = Ret (mkFun 3 [5; 3; 6; 1; 4; 2]%R).
Proof. lazy. reflexivity. Qed.
Example C42_nonvacuous_right : sf_right_translate f3 [2; 3; 1] = Ret (mkFun 3 [5; 6; 2; 1; 4; 3]%R).
Proof. lazy. reflexivity. Qed.
Example C42_nonvacuous_inv : sf_inv f3 = Ret (mkFun 3 [1; 2; 3; 5; 4; 6]%R).
Proof. lazy. reflexivity. Qed.
(* on S2: (1,2)*(3,5) = (1*3+2*5, 1*5+2*3) *)
Example C43_nonvacuous : exists h, sf_convolve (mkFun 2 [1; 2]%R) (mkFun 2 [3; 5]%R) = Ret h /\ sf_at h [1; 2] = Ret 13%R /\ sf_at h [2; 1] = Ret 11%R.
Proof.
  eexists. split; [reflexivity|]. split; lazy -[Rplus Rmult IZR]; f_equal; ring.
Qed.
