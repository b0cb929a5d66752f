(* The calls a user may make on the group objects. *)
From Coq Require Import ZArith List.
From Verif Require Import Model_Base Model_Tab Model_SnBank Spec_Part.
Import ListNotations.
Open Scope Z_scope.

(* number of partitions of n, as the length of any complete list without repetition *)
Definition n_partitions (n c : Z) : Prop :=
  exists L, NoDup L /\ (forall p, In p L <-> is_part n p) /\ Z.of_nat (length L) = c.

Definition legal_call (q : squery) : Prop :=
  match q with
  | SGroup n | SAll n | SNcc n | SOver n _ => 1 <= n
  | SIrrep lambda => exists n, 1 <= n /\ is_part n lambda
  | SIrrepOf n lambda => 1 <= n /\ is_part n lambda
  | SIrrepAt n i | SCclass n i => 1 <= n /\ 0 <= i /\ exists c, n_partitions n c /\ i < c
  | SCindex n lambda | SCclassOf n lambda =>      (* any composition of n may be looked up *)
      1 <= n /\ zsum lambda = n /\ (forall x, In x lambda -> 1 <= x)
  end.

(* the call asks for irreps of S_n *)
Definition irrep_call (n : Z) (q : squery) : Prop :=
  match q with
  | SIrrep lambda => zsum lambda = n
  | SIrrepOf n' _ | SAll n' | SIrrepAt n' _ => n' = n
  | _ => False
  end.

(* the irrep object at address q is that of lambda, with lambda's tableaux *)
Definition at_lambda (s : sstate) (q : Z) (lambda : list Z) : Prop :=
  exists ts, nth_error (ss_irr s) (Z.to_nat q) = Some (mkIrr lambda ts) /\ young_tableaux lambda = Ret ts.
