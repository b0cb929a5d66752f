(* Runs of the code in the machine's arithmetic, executed inside Coq: two multiplicities of S_7, and all of those of S_1 to
   S_6, of which the weighted sums are compared with the product of the dimensions. *)
From Coq Require Import ZArith List Bool Lia.
From Verif Require Import Model_Base Model_Part Model_Float Proof_PartProps.
Import ListNotations.
Open Scope Z_scope.

Definition fv (l : list Z) : list (fl ieee) := match f_values ieee l with Ret v => v | _ => [] end.
Definition hk (l : list Z) : Z := match ip_hooklength l with Ret h => h | _ => 0 end.
Definition fco (n : Z) (v1 v2 v3 : list (fl ieee)) : Z := match f_coeff_of ieee n v1 v2 v3 with Ret m => m | _ => 0 end.
Definition adds_up (n : Z) : bool :=
  let T := map (fun l => (fv l, hk l)) (plist (Z.to_nat (n - 1))) in
  forallb (fun a => forallb (fun b => fold_right (fun c s => fco n (fst a) (fst b) (fst c) * snd c + s) 0 T =? snd a * snd b) T) T.

Lemma runs_6 n : 1 <= n <= 6 -> adds_up n = true.
Proof.
  intros H. assert (n = 1 \/ n = 2 \/ n = 3 \/ n = 4 \/ n = 5 \/ n = 6) as C by lia.
  repeat (destruct C as [->|C]; [vm_cast_no_check (eq_refl true)|]). subst n. vm_cast_no_check (eq_refl true).
Qed.

Definition pair_at (n : Z) (a b c : list Z) : outcome (Z * Z) :=
  x <- f_values ieee a ;; y <- f_values ieee b ;; z <- f_values ieee c ;;
  k <- f_coeff_of ieee n x y y ;; k' <- f_coeff_of ieee n x z z ;; Ret (k, k').
Lemma run_7 : pair_at 7 [5; 2] [2; 2; 2; 1] [4; 3] = Ret (0, 1).
Proof. vm_cast_no_check (eq_refl (@Ret (Z * Z) (0, 1))). Qed.
