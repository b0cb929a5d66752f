(* random() picks each permutation for exactly one draw. *)
From Coq Require Import ZArith List Bool Lia ZifyBool.
From Verif Require Import Model_Base Model_Perm Model_Sn Model_Sn32 Model_Random Spec_Perm Spec_Random.
From Verif Require Import Proof_Base Proof_Perm Proof_Sn Proof_SnProps.
Import ListNotations.
Open Scope Z_scope.

Lemma size_bounds n : 1 <= n <= 12 -> 1 <= sn_size n <= 479001600.
Proof.
  intros H. split; [unfold sn_size; pose proof (zfact_pos n); lia|]. assert (In n (zrange 1 13)) as I by (apply in_zrange; lia). revert I. clear. intros I. cbv in I. repeat (destruct I as [<-|I]; [cbv; discriminate|]). contradiction.
Qed.
Lemma random_eq {G} (unif : Z -> Z -> G -> Z * G) n g : 1 <= n <= 12 -> draws_in_range unif ->
  exists p, sn_element n (fst (unif 0 (sn_size n - 1) g)) = Ret p /\ is_perm n p /\ sn_index n p = Ret (fst (unif 0 (sn_size n - 1) g)) /\
    sn_random unif n g = Ret (p, snd (unif 0 (sn_size n - 1) g)).
Proof.
  intros Hn U. pose proof (size_bounds n Hn) as B. destruct (int32_sufficient n Hn) as (A1 & A2 & _). pose proof (U 0 (sn_size n - 1) g ltac:(lia)) as R.
  assert (0 <= fst (unif 0 (sn_size n - 1) g) < sn_size n) as R' by lia. destruct (proj1 (sn_bijection n (proj1 Hn)) _ R') as (p & E & P & I). exists p. repeat (split; [assumption|]).
  unfold sn_random. rewrite A1. cbn [bind]. unfold i32. replace ((-2147483648 <=? sn_size n - 1) && (sn_size n - 1 <=? 2147483647)) with true by lia. cbn [bind]. replace (sn_size n - 1 <? 0) with false by lia.
  destruct (unif 0 (sn_size n - 1) g) as (e, g'). cbn [fst snd] in *. rewrite A2 by lia. rewrite E. auto.
Qed.
Lemma random_perm {G} (unif : Z -> Z -> G -> Z * G) n g : 1 <= n <= 12 -> draws_in_range unif -> exists p g', sn_random unif n g = Ret (p, g') /\ is_perm n p.
Proof. intros Hn U. destruct (random_eq unif n g Hn U) as (p & _ & P & _ & E). eauto. Qed.

Lemma random_uniform {G} (unif : Z -> Z -> G -> Z * G) n L c p : 1 <= n <= 12 -> draws_in_range unif -> equal_shares unif 0 (sn_size n - 1) L c -> is_perm n p ->
  how_many (fun g => match sn_random unif n g with Ret (q, _) => same_perm q p | _ => false end) L = c.
Proof.
  intros Hn U S P. destruct (proj2 (sn_bijection n (proj1 Hn)) p P) as (i & I & R & E). rewrite <- (S i) by (unfold sn_size; lia). unfold how_many. f_equal. apply filter_ext. intros g.
  destruct (random_eq unif n g Hn U) as (q & F & Q & J & ->). unfold same_perm. destruct (list_eq_dec Z.eq_dec q p) as [->|D].
  - rewrite I in J. apply Ret_inj in J. rewrite <- J. symmetry. apply Z.eqb_refl.
  - destruct (Z.eqb_spec (fst (unif 0 (sn_size n - 1) g)) i) as [X|]; auto. exfalso. apply D. rewrite X, E in F. apply Ret_inj in F. auto.
Qed.

Lemma randoms_eq {G} (unif : Z -> Z -> G -> Z * G) n k g : 1 <= n <= 12 -> draws_in_range unif ->
  exists ps, sn_randoms unif n k g = Ret (ps, state_after unif (sn_size n - 1) k g) /\ Forall2 (fun e p => is_perm n p /\ sn_index n p = Ret e) (draws unif (sn_size n - 1) k g) ps.
Proof.
  intros Hn U. revert g. induction k as [|k IH]; intros g; cbn [sn_randoms draws state_after]; [eauto|]. destruct (random_eq unif n g Hn U) as (p & E & P & I & ->). cbn [bind]. destruct (IH (snd (unif 0 (sn_size n - 1) g))) as (ps & -> & F). cbn [bind]. eauto 6.
Qed.
Lemma random_over {G} (unif : Z -> Z -> G -> Z * G) n g : 13 <= n -> sn_random unif n g = UB.
Proof. intros Hn. unfold sn_random, sn_size32. rewrite zfact32_overflow by auto. auto. Qed.

(* a generator that counts *)
Definition count_up (a b g : Z) : Z * Z := (a + g mod (b - a + 1), g + 1).
Lemma count_up_ok : draws_in_range count_up.
Proof. intros a b g H. cbn [count_up fst]. pose proof (Z.mod_pos_bound g (b - a + 1) ltac:(lia)). lia. Qed.
