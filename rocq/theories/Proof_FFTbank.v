(* The memo table of the transforms, Sn/SnFFTbank.hpp. *)
From Coq Require Import ZArith List Bool Lia.
From Verif Require Import Model_Base Model_FFT.
From Verif Require Import Proof_Base Proof_FFTlay2 Proof_FFTlay Proof_FFT.
Import ListNotations.
Open Scope Z_scope.

(* a run of requests *)
Fixpoint fb_run (qs : list (Z * Z)) (b : fbank) : outcome (list fft * fbank) :=
  match qs with
  | [] => Ret ([], b)
  | (n, m) :: qs => r <- fb_get b n m ;; let '(F, b) := r in s <- fb_run qs b ;; Ret (F :: fst s, snd s)
  end.

(* the requests that a constructor of ClausenFFT makes: n alone (m is then -1), or n and m *)
Definition legal_fft (q : Z * Z) : Prop := (1 <= fst q /\ snd q = -1) \/ 1 <= snd q <= fst q.

Definition made (n m : Z) (F : fft) : Prop := (m = -1 /\ fft_new n = Ret F) \/ (1 <= m /\ fft_new2 n m = Ret F).
Definition fb_ok (b : fbank) : Prop := forall n m F, fb_find b n m = Some F -> made n m F.

Lemma made_ex n m : legal_fft (n, m) -> exists F, (if m >? -1 then fft_new2 n m else fft_new n) = Ret F /\ made n m F.
Proof.
  intros [(A & B)|A]; cbn [fst snd] in *.
  - subst m. destruct (sn_layout n A) as (F & E & _). exists F. split; [exact E|]. left. auto.
  - destruct (quotient_layout n m A) as (F & E & _). exists F. destruct (m >? -1) eqn:Q; [|lia]. split; auto. right. split; auto. lia.
Qed.

Lemma made_fun n m F F' : made n m F -> made n m F' -> F = F'.
Proof. intros [(A & B)|(A & B)] [(C & D)|(C & D)]; try lia; rewrite B in D; apply Ret_inj in D; auto. Qed.

Lemma fb_find_app b n m F n' m' : fb_find (b ++ [(n, m, F)]) n' m' = match fb_find b n' m' with Some X => Some X | None => if (n =? n') && (m =? m') then Some F else None end.
Proof. induction b as [|((n0, m0), F0) b IH]; cbn; [reflexivity|]. destruct ((n0 =? n') && (m0 =? m')); auto. Qed.

Lemma fb_get_ok b n m : fb_ok b -> legal_fft (n, m) -> exists F b', fb_get b n m = Ret (F, b') /\ made n m F /\ fb_ok b' /\ fb_find b' n m = Some F /\ (forall n' m' X, fb_find b n' m' = Some X -> fb_find b' n' m' = Some X).
Proof.
  intros B L. unfold fb_get. destruct (fb_find b n m) as [F|] eqn:E; [exists F, b; auto 10|]. destruct (made_ex n m L) as (F & EF & M). rewrite EF. cbn [bind]. exists F, (b ++ [(n, m, F)]).
  split; auto. split; auto. split; [|split].
  - intros n' m' X. rewrite fb_find_app. destruct (fb_find b n' m') eqn:Q; [intros H; injection H as <-; apply B; auto|]. destruct ((n =? n') && (m =? m')) eqn:W; [|discriminate].
    apply andb_true_iff in W as (W1 & W2). apply Z.eqb_eq in W1, W2. subst n' m'. intros H. injection H as <-. auto.
  - rewrite fb_find_app, E, !Z.eqb_refl. reflexivity.
  - intros n' m' X H. rewrite fb_find_app, H. reflexivity.
Qed.

Lemma fb_run_ok qs b : fb_ok b -> Forall legal_fft qs -> exists Fs b', fb_run qs b = Ret (Fs, b') /\ Forall2 (fun q F => made (fst q) (snd q) F) qs Fs /\ fb_ok b' /\ (forall n' m' X, fb_find b n' m' = Some X -> fb_find b' n' m' = Some X).
Proof.
  revert b. induction qs as [|(n, m) qs IH]; intros b B L; cbn [fb_run].
  - exists [], b. auto.
  - inversion L as [|? ? L1 L2]; subst. destruct (fb_get_ok b n m B L1) as (F & b1 & E & M & B1 & _ & P1). rewrite E. cbn [bind]. destruct (IH b1 B1 L2) as (Fs & b2 & E2 & W & B2 & P2). rewrite E2. cbn [bind fst snd]. exists (F :: Fs), b2. split; auto.
Qed.

Lemma fb_nil : fb_ok [].
Proof. intros n m F H. discriminate H. Qed.

(* the answer of a request does not depend on what was asked before, and asking again changes nothing *)
Lemma fft_bank qs1 qs2 n m : Forall legal_fft qs1 -> Forall legal_fft qs2 -> legal_fft (n, m) ->
  exists F Fs1 b1 b2 Fs2 b3, (if m >? -1 then fft_new2 n m else fft_new n) = Ret F /\ fb_run qs1 [] = Ret (Fs1, b1) /\ fb_get b1 n m = Ret (F, b2) /\ fb_run qs2 b2 = Ret (Fs2, b3) /\ fb_get b3 n m = Ret (F, b3).
Proof.
  intros L1 L2 L. destruct (fb_run_ok qs1 [] fb_nil L1) as (Fs1 & b1 & E1 & _ & B1 & _). destruct (fb_get_ok b1 n m B1 L) as (F & b2 & E2 & M & B2 & K & _).
  destruct (fb_run_ok qs2 b2 B2 L2) as (Fs2 & b3 & E3 & _ & B3 & P3). destruct (made_ex n m L) as (F' & EF & M'). pose proof (made_fun n m F F' M M'). subst F'.
  exists F, Fs1, b1, b2, Fs2, b3. repeat (split; [assumption|]). unfold fb_get. rewrite (P3 _ _ _ K). reflexivity.
Qed.

(* the transform for the quotient by the trivial group S1 is the transform of Sn but for its label *)
Lemma fft_trivial n : 1 <= n -> exists F F', fft_new n = Ret F /\ fft_new2 n 1 = Ret F' /\ ff_n F = ff_n F' /\ ff_levels F = ff_levels F'.
Proof.
  intros Hn. eexists _, _. split; [apply fft_new_ok; auto|]. split; [apply fft_new2_ok; lia|]. cbn [ff_n ff_levels]. split; [reflexivity|]. replace (S (Z.to_nat (n - 1))) with (Z.to_nat n) by lia. reflexivity.
Qed.
