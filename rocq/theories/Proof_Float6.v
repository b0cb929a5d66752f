(* Rounded arithmetic: the values of a character and the multiplicities, from the irreps on. *)
From Coq Require Import ZArith List Bool Lia ZifyBool Permutation Reals Lra.
From Verif Require Import Model_Base Model_Sn Model_Perm Model_Part Model_Comb Model_Tab Model_Irrep Model_Class Model_Type Model_Char Model_CG Model_Float.
From Verif Require Import Spec_Perm Spec_Part Spec_Tab Spec_Rep Spec_Four Spec_Type Spec_Char Spec_CG Spec_Float.
From Verif Require Import Proof_Base Proof_Perm Proof_Sn Proof_SnProps Proof_Part Proof_PartProps Proof_Tab Proof_TabProps Proof_Cycles Proof_Cox Proof_Yor Proof_Sum Proof_Irrep Proof_Rep Proof_Mat Proof_IrrepProps Proof_JM Proof_Conn Proof_Schur Proof_Restr Proof_UpDown Proof_Complete Proof_CombBank Proof_Map Proof_Type Proof_Rept Proof_Rept2 Proof_Char Proof_Class Proof_Class2 Proof_Class3 Proof_Kron Proof_Prune Proof_SnBank Proof_CharBank Proof_CG Proof_CGdown Proof_Int4.
From Verif Require Import Proof_Float1 Proof_Float2 Proof_Float3 Proof_Float4 Proof_Float5.
Import Model_Char ListNotations.
Open Scope R_scope.

Section Main.
  Variables (F : arith) (fval : fl F -> option R) (dval : db F -> option R) (u v e B : R).
  Hypothesis Hr : rounded F fval dval u v e B.
  Hypothesis Hu : 0 <= u <= / 1000.
  Hypothesis Hv : 0 <= v <= / 1000.
  Hypothesis He : 0 <= e <= v / 1000.
  Hypothesis Heu : e <= u.
  Hypothesis HB : 1000 <= B.
  Variables (n : Z).
  Hypothesis Hn : (1 <= n <= 2 ^ 25)%Z.

  (* a bound D on the dimensions *)
  Variables (D : Z).
  Hypothesis HD : (3 <= D)%Z.
  Definition gam : R := 2 * alpha u v + beta e * IZR D.
  Definition verr : R := 2 * IZR D * (2 * IZR (n - 1) * gam + u * IZR D + e).
  Hypothesis G1 : 2 * IZR (n - 1) * gam <= 1.
  Hypothesis U1 : 2 * IZR D * u <= 1.
  Hypothesis B1 : 10 * IZR D <= B.

  Lemma f_values_ok l : is_part n l -> (dd n l <= D)%Z -> exists w, f_values F l = Ret w /\ near_values F fval n l verr w.
  Proof.
    intros P HD2. destruct (mkirr_ok n l P ltac:(lia)) as (E & G). destruct (f_yor_ok F n l (mkirr n l) G) as (b & Eb & T).
    unfold f_values. rewrite E. cbn [bind]. rewrite Eb. cbn [bind]. rewrite ip_getn_zsum, (is_part_sum n l P), integer_partitions_ok by lia. cbn [bind]. fold (pl n).
    pose proof (zlen_nonneg (pl n)) as Z0. pose proof (dpos0 (mkirr n l)) as d0. pose proof (IZR_le _ _ d0) as d1. pose proof (IZR_le _ _ HD2) as d2.
    assert (0 <= beta e) as be0 by (unfold beta; lra).
    assert (gamma u v e (mkirr n l) <= gam) as GG. { unfold gamma, gam. assert (beta e * IZR (dd n l) <= beta e * IZR D) by (apply Rmult_le_compat_l; lra). lra. }
    assert (0 <= IZR (n - 1)) as N0 by (apply IZR_le; lia). pose proof (gamma_nonneg u v e Hu Hv He (mkirr n l)) as g0.
    assert (2 * IZR (n - 1) * gamma u v e (mkirr n l) <= 2 * IZR (n - 1) * gam) as GG2 by (apply Rmult_le_compat_l; lra).
    assert (u * IZR (dd n l) <= u * IZR D) as UD by (apply Rmult_le_compat_l; lra).
    assert (2 * IZR (dd n l) * cerr u v e n (mkirr n l) <= verr) as CV.
    { unfold cerr, verr. apply Rmult_le_compat; try lra. assert (0 <= 2 * IZR (n - 1) * gamma u v e (mkirr n l)) by (apply Rmult_le_pos; lra). assert (0 <= u * IZR (dd n l)) by (apply Rmult_le_pos; lra). lra. }
    destruct (zfor_inv (fun i w => zlen w = i /\ forall j, (0 <= j < i)%Z -> exists x, fval (znth w j (fz F 0)) = Some x /\ Rabs (x - cval n l (znth (pl n) j [])) <= verr) 0 (zlen (pl n))
      (fun i v => c <- rd (pl n) i ;; x <- f_character_with F (mkirr n l) b c ;; Ret (v ++ [x])) []) as (w & Ew & Lw & Vw).
    - auto.
    - split; [reflexivity|]. intros; lia.
    - intros i w Hi (Lw & Vw). rewrite (rd_ok _ _ []) by auto. cbn [bind]. pose proof (znth_pl n i ltac:(lia) Hi) as Pm.
      destruct (f_character_ok F fval dval u v e B Hr Hu Hv He HB n l (mkirr n l) G ltac:(lia) b (znth (pl n) i []) T (is_part_ppos _ _ Pm) (is_part_sum _ _ Pm)) as (a & x & r & Ea & Vx & Er & Dx); [lra|lra|lra|].
      rewrite Ea. cbn [bind]. eexists. split; [reflexivity|]. split; [rewrite zlen_app, Lw; reflexivity|]. intros j Hj. rewrite znth_app by lia. destruct (Z.ltb_spec j (zlen w)); [apply Vw; lia|].
      replace (j - zlen w)%Z with 0%Z by lia. assert (j = i) as -> by lia. exists x. split; [exact Vx|]. rewrite irr_character_val in Er by (auto; lia). apply Ret_inj in Er. subst r. lra.
    - exists w. split; [exact Ew|]. split; auto.
  Qed.

  Lemma f_coeff_ok l1 l2 l3 : is_part n l1 -> is_part n l2 -> is_part n l3 -> (dd n l1 <= D)%Z -> (dd n l2 <= D)%Z -> (dd n l3 <= D)%Z ->
    12 * verr <= 1 -> 20 * IZR D * (IZR D * IZR D * IZR (zfact n)) <= B -> (2 * D <= 2 ^ 29)%Z -> 48 * verr + (12 * IZR (zlen (pl n)) + 234) * u * IZR D < 1 ->
    f_coeff F l1 l2 l3 = Ret (kz n l1 l2 l3) \/ (1 <= kz n l1 l2 l3)%Z /\ f_coeff F l1 l2 l3 = Ret (kz n l1 l2 l3 - 1)%Z.
  Proof.
    intros P1 P2 P3 D1 D2 D3 HV HB2 HD2 HM. unfold f_coeff. rewrite !ip_getn_zsum, (is_part_sum n l1), (is_part_sum n l2), (is_part_sum n l3), Z.eqb_refl by auto. cbn [assert_ bind].
    destruct (f_values_ok l1 P1 D1) as (w1 & -> & W1). destruct (f_values_ok l2 P2 D2) as (w2 & -> & W2). destruct (f_values_ok l3 P3 D3) as (w3 & -> & W3). cbn [bind].
    apply (f_coeff_of_ok F fval dval u v e B Hr Hu (conj (proj1 He) Heu) n l1 l2 l3 verr verr verr (IZR D)); auto; try lia; try (apply IZR_le; auto; fail).
    - lra.
    - apply IZR_le in HD2. rewrite mult_IZR in HD2. exact HD2.
    - unfold merr. lra.
  Qed.
End Main.
