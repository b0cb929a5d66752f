(* The life of an irrep object: the calls a client can make between construction and destruction. *)
From Coq Require Import ZArith List Bool.
From Verif Require Import Spec_Perm.
Import ListNotations.
Open Scope Z_scope.

Inductive use :=
| UseTau (tau : Z)                (* apply_left(A,tau), apply_left(A,tau,beg,end), apply(view,tau) *)
| UseSigma (sigma : list Z)       (* rho(sigma), apply_left(A,sigma), apply_left(A,sigma,beg,end), apply(view,sigma) *)
| UseCycle (a b : Z)              (* apply_left(A,ContiguousCycle(a,b)), apply(view,ContiguousCycle(a,b)) *)
| UseCycleInv (a b : Z)           (* apply_left_inv(A,ContiguousCycle(a,b)) *)
| UseTransp (i j : Z)             (* apply_left(A,Transposition(i,j)), apply(view,Transposition(i,j)) *)
| UseChar (mu : list Z)           (* character(mu) *)
| UseJM (k : Z)                   (* JucysMurphy(k) *)
| ViewTau (tau : Z)               (* apply_left(view,tau) *)
| ViewSigma (sigma : list Z)      (* apply_left(view,sigma) *)
| ViewCycle (a b : Z)
| ViewTransp (i j : Z).

(* calls of a degree n irrep with arguments the documentation allows *)
Definition proper (n : Z) (u : use) : Prop :=
  match u with
  | UseSigma s | ViewSigma s => is_perm n s
  | UseJM k => k <= n
  | _ => True
  end.

(* the calls that need the tables of the matrix actions *)
Definition needs_tables (n : Z) (u : use) : Prop :=
  match u with
  | UseTau _ => True
  | UseSigma s => exists i, 1 <= i <= n /\ img s i <> i
  | UseCycle a b => a <> b
  | UseCycleInv a b => a < b
  | UseTransp i j => i <> j
  | UseChar mu => exists m, In m mu /\ m <> 1
  | UseJM k => 2 <= k
  | _ => False
  end.
