(* The queries a user may put to the combinatorial bank. *)
From Coq Require Import ZArith List.
From Verif Require Import Model_CombBank Spec_Part.
Open Scope Z_scope.

Definition legal_query (q : cquery) : Prop :=
  match q with
  | QParts n => 1 <= n
  | QRO n => 1 <= n
  | QTabs lambda => exists n, 1 <= n /\ is_part n lambda
  end.
