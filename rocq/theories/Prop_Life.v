(* Property C62: destroying an irrep object. *)
From Coq Require Import ZArith List Bool Lia.
From Verif Require Import Model_Base Model_Perm Model_Irrep Spec_Perm Spec_Life Model_Life.
From Verif Require Import Proof_Base Proof_Perm Proof_PermProps Proof_Life.
Import ListNotations.
Open Scope Z_scope.

(* After any sequence of proper calls: if one of them needed the tables of the matrix action, the
   destructor frees every block the object obtained, each once; otherwise it deletes two pointers
   that were never initialised. *)
Theorem C62_destructor : forall n h, 1 <= n -> Forall (proper n) h ->
  exists s, lf_run n h lf_new = Ret s /\
    (Exists (needs_tables n) h -> exists bl, lf_dtor s = Ret bl /\ Forall (fun b => b = false) bl) /\
    (~ Exists (needs_tables n) h -> lf_dtor s = UB).
Proof. exact destroy_iff. Qed.
Print Assumptions C62_destructor.

(* "an irrep object can be destroyed in any state" is false: a new object, one that was only asked for
   the matrix of the identity, for the first Jucys-Murphy element or for the value of its character at
   the identity, and one only ever applied to views *)
Theorem C62_any_state_refuted :
  lf_dtor lf_new = UB /\
  (forall n sigma, 1 <= n -> is_perm n sigma -> (forall i, 1 <= i <= n -> img sigma i = i) ->
     exists s, lf_run n [UseSigma sigma; UseJM 1; UseChar (repeat 1 (Z.to_nat n))] lf_new = Ret s /\ lf_dtor s = UB) /\
  (forall n tau, 1 <= n -> exists s, lf_run n [ViewTau tau] lf_new = Ret s /\ lf_dtor s = UB).
Proof.
  split; [reflexivity|]. split.
  - intros n sigma Hn P Hid.
    destruct (destroy_iff n [UseSigma sigma; UseJM 1; UseChar (repeat 1 (Z.to_nat n))] Hn) as (s & E & _ & U).
    { constructor; [exact P|]. constructor; [cbn; lia|]. constructor; [exact I|constructor]. }
    exists s. split; [auto|]. apply U. intros X.
    repeat (apply Exists_cons in X; destruct X as [X|X]); cbn [needs_tables] in X.
    + destruct X as (i & Hi & Ni). auto.
    + lia.
    + destruct X as (m & Hm & Nm). apply repeat_spec in Hm. auto.
    + inversion X.
  - intros n tau Hn. destruct (destroy_iff n [ViewTau tau] Hn) as (s & E & _ & U).
    { constructor; [exact I|constructor]. }
    exists s. split; [auto|]. apply U. intros X. inversion X as [? ? H|? ? H]; [exact H|inversion H].
Qed.
Print Assumptions C62_any_state_refuted.

(* a history in which the destructor is fine *)
Example C62_example : Forall (proper 3) [ViewTau 1; UseSigma [1; 2; 3]; UseSigma [2; 1; 3]; UseJM 2] /\
  exists s, lf_run 3 [ViewTau 1; UseSigma [1; 2; 3]; UseSigma [2; 1; 3]; UseJM 2] lf_new = Ret s /\
  lf_dtor s = Ret [false; false; false; false; false; false; false; false].
Proof.
  split.
  - constructor; [exact I|]. constructor; [apply (check_is_perm [1; 2; 3]); reflexivity|].
    constructor; [apply (check_is_perm [2; 1; 3]); reflexivity|]. constructor; [cbn; lia|constructor].
  - eexists. split; vm_compute; reflexivity.
Qed.
