(* Proofs for C102. *)
From Coq Require Import ZArith List Bool Lia Reals Lra.
From Verif Require Import Model_Base Model_Perm Model_Part Model_Comb Model_Tab Model_Irrep Model_Type Model_FFT Model_Vec Model_Fill.
From Verif Require Import Spec_Perm Spec_Part Spec_Type Spec_Vec Spec_Fill Proof_Base Proof_Irrep Proof_Mat Proof_IrrepProps Proof_Restr Proof_Vec Proof_Vec5 Proof_CGvec2.
Import ListNotations.
Open Scope Z_scope.

Lemma fill_ok p d m : 0 <= d -> fits_pattern p d m -> exists M, fill_new p d m = Ret M /\ m_n0 M = d /\ m_n1 M = m /\ forall i j, m_at M i j = entry p i j.
Proof.
  intros Hd (Hm & Hp). unfold fill_new. destruct (Z.ltb_spec d 0); [lia|]. destruct (Z.ltb_spec m 0); [lia|]. cbn [orb].
  destruct p; [eexists; split; [reflexivity|]; cbn; auto..|]. rewrite Hp by reflexivity. rewrite Z.eqb_refl. eexists. split; [reflexivity|]. cbn. auto.
Qed.

Lemma sp_new_ok p n l m o : is_part n l -> 1 <= n -> irr_new l = Ret o -> fits_pattern p (io_d o) m -> exists P, sp_new p l m = Ret P /\ sp_irr P = o /\ part_of l m P /\ filled p P.
Proof.
  intros Hl Hn E F. destruct (fill_ok p (io_d o) m) as (M & EM & M0 & M1 & V); [unfold io_d, zlen; lia|exact F|].
  exists (mkSpart o M). unfold sp_new. rewrite E. cbn [bind]. rewrite EM. cbn [bind]. split; [reflexivity|]. split; [reflexivity|]. split.
  - split; [exact E|]. cbn [sp_mat sp_irr]. destruct F. auto.
  - intros i j _ _. apply V.
Qed.

Lemma sv_new_ok p n tau : 1 <= n -> (forall q, In q tau -> is_part n (fst q)) -> fits_type p tau ->
  exists v, sv_new p tau = Ret v /\ vec_of tau v /\ Forall (filled p) v.
Proof.
  intros Hn Ht F. unfold sv_new.
  assert (K : forall acc, exists v, foldM (fun q R => P <- sp_new p (fst q) (snd q) ;; Ret (R ++ [P])) tau acc = Ret (acc ++ v) /\ vec_of tau v /\ Forall (filled p) v).
  { induction tau as [|[l m] tau IH]; intros acc.
    - exists []. rewrite app_nil_r. split; [reflexivity|]. split; constructor.
    - assert (Hl : is_part n l) by (apply (Ht (l, m)); left; reflexivity). destruct (irr_new_ok n l Hl Hn) as (o & E & _).
      destruct (sp_new_ok p n l m o Hl Hn E) as (P & EP & _ & PP & FP). { apply (F l m o); [left; reflexivity|exact E]. }
      cbn [foldM fst snd]. rewrite EP. cbn [bind]. destruct (IH (fun q I => Ht q (or_intror I)) (fun l m o I => F l m o (or_intror I)) (acc ++ [P])) as (v & Ev & V & Fv).
      exists (P :: v). rewrite Ev, <- app_assoc. split; [reflexivity|]. split; constructor; auto. }
  apply (K []).
Qed.

Theorem new_vec p n tau : 1 <= n -> type_of n tau -> fits_type p tau ->
  exists v, sv_new p tau = Ret v /\ vec_of tau v /\ Forall (filled p) v /\ sv_type v = Ret tau.
Proof.
  intros Hn T F. destruct (sv_new_ok p n tau) as (v & E & V & FV); auto.
  { intros q I. destruct T as (_ & T). rewrite Forall_forall in T. apply T, in_map, I. }
  exists v. split; [exact E|]. split; [exact V|]. split; [exact FV|]. apply (type_vec n); auto.
Qed.

(* the zero vector of the other models *)
Lemma new_zero tau : sv_new PZero tau = sv_zero tau.
Proof.
  unfold sv_new, sv_zero. apply foldM_ext. intros q R _. unfold sp_new, sp_zero, fill_new. destruct (irr_new (fst q)) as [o| | |]; cbn [bind]; try reflexivity.
  destruct (Z.ltb_spec (io_d o) 0); [unfold io_d, zlen in *; lia|]. cbn [orb]. destruct (snd q <? 0); reflexivity.
Qed.

(* acting on the identity gives the matrix of the permutation *)
Theorem identity_moves n l o p : is_part n l -> 1 <= n -> irr_new l = Ret o -> is_perm n p ->
  exists P Q M, sp_new PIdentity l (io_d o) = Ret P /\ irr_matrix o p = Ret M /\ sv_apply p [P] = Ret [Q] /\ sp_irr Q = o /\
  m_n0 (sp_mat Q) = io_d o /\ m_n1 (sp_mat Q) = io_d o /\ forall i j, 0 <= i < io_d o -> 0 <= j < io_d o -> m_at (sp_mat Q) i j = m_at M i j.
Proof.
  intros Hl Hn E Hp. pose proof (irr_new_good n l o Hl Hn E) as G. destruct (matrix_ok n l o G p Hp) as (M & EM & M0 & M1 & _).
  exists (mkSpart o (mident (io_d o))), (mkSpart o M), M. split.
  - unfold sp_new. rewrite E. cbn [bind]. unfold fill_new. destruct (Z.ltb_spec (io_d o) 0); [unfold io_d, zlen in *; lia|]. cbn [orb]. rewrite Z.eqb_refl. reflexivity.
  - split; [exact EM|]. split; [|cbn; auto]. unfold sv_apply. cbn [foldM sp_irr sp_mat]. unfold irr_matrix in EM. rewrite EM. reflexivity.
Qed.

(* ---- Python's ones ---- *)
Theorem part_ones n l o : is_part n l -> 1 <= n -> irr_new l = Ret o -> exists P, py_part_ones l (io_d o) = Ret P /\ part_of l (io_d o) P /\ filled PIdentity P /\ (filled POnes P <-> io_d o = 1).
Proof.
  intros Hl Hn E. destruct (sp_new_ok PIdentity n l (io_d o) o Hl Hn E) as (P & EP & EI & PP & FP). { split; [unfold io_d, zlen; lia|auto]. }
  exists P. split; [exact EP|]. split; [exact PP|]. split; [exact FP|]. destruct PP as (_ & D0 & D1 & _). rewrite EI in D0.
  pose proof (irr_new_good n l o Hl Hn E) as G. assert (1 <= io_d o) by (destruct (mkirr_ok n l Hl Hn) as (E2 & _); rewrite E in E2; apply Ret_inj in E2; rewrite E2; pose proof (dpos n l Hn Hl); lia). split.
  - intros O. destruct (Z.eq_dec (io_d o) 1) as [|N]; [assumption|exfalso]. specialize (O 0 1 ltac:(lia) ltac:(lia)). rewrite (FP 0 1) in O by lia. cbn in O. lra.
  - intros D i j Hi Hj. rewrite FP by assumption. replace i with 0 by lia. replace j with 0 by lia. reflexivity.
Qed.

Theorem vec_ones n tau v : 1 <= n -> type_of n tau -> fits_type PIdentity tau -> py_vec_ones tau = Ret v -> (Forall (filled POnes) v <-> Forall (fun p => snd p <= 1) tau).
Proof.
  intros Hn T F E. destruct (new_vec PIdentity n tau Hn T F) as (v' & E' & V & FV & _). unfold py_vec_ones in E. assert (v' = v) by congruence. subst v'. clear E E'.
  assert (Ht : forall q, In q tau -> is_part n (fst q)). { intros q I. destruct T as (_ & T). rewrite Forall_forall in T. apply T, in_map, I. } clear T.
  induction V as [|[l m] P tau v PP V IH]; [split; constructor|]. inversion FV as [|? ? FP FV']; subst.
  specialize (IH (fun l m o I => F l m o (or_intror I)) FV' (fun q I => Ht q (or_intror I))). cbn [fst snd] in PP. pose proof PP as (EP & D0 & D1 & _).
  destruct (F l m _ (or_introl eq_refl) EP) as (Hm & Hd). specialize (Hd eq_refl).
  split; intros H; inversion H as [|? ? H1 H2]; subst; constructor; try (apply IH; assumption).
  - cbn. destruct (Z_le_gt_dec (m_n1 (sp_mat P)) 1) as [|N]; [assumption|exfalso]. specialize (H1 0 1 ltac:(lia) ltac:(lia)). rewrite (FP 0 1) in H1 by lia. cbn in H1. lra.
  - cbn in H1. intros i j Hi Hj. rewrite FP by assumption. replace i with 0 by lia. replace j with 0 by lia. reflexivity.
Qed.
