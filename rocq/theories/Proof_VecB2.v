(* Batched vectors: the theorems about slices. *)
From Coq Require Import ZArith List Bool Lia Reals Lra Sorting.Sorted Permutation.
From Verif Require Import Model_Base Model_Perm Model_Sn Model_Part Model_Comb Model_Tab Model_Irrep Model_Type Model_FFT Model_Vec Model_Char Model_CG Model_CGvec Model_VecB.
From Verif Require Import Spec_Perm Spec_Part Spec_Tab Spec_Rep Spec_Four Spec_Type Spec_FFT Spec_Vec Spec_CG Spec_CGvec Spec_VecB.
From Verif Require Import Proof_Base Proof_Perm Proof_Sn Proof_Part Proof_PartProps Proof_Tab Proof_TabProps Proof_Cycles Proof_Cox Proof_Yor Proof_Sum Proof_Irrep Proof_Rep Proof_Mat Proof_IrrepProps Proof_JM Proof_Conn Proof_Restr Proof_Type Proof_View Proof_Vec Proof_Vec2 Proof_Vec3 Proof_Vec4 Proof_Vec5 Proof_Vec6 Proof_CG Proof_CGvec1 Proof_CGvec2 Proof_CGvec3 Proof_CGvec4 Proof_CGvec5 Proof_CGvec6 Proof_CGvec7 Proof_VecB.
Import ListNotations.
Open Scope Z_scope.

Lemma slice_rel nb k P : t_n0 (pb_t P) = nb -> prel nb k P (slice k P).
Proof. intros E. split; [reflexivity|]. split; [auto|]. split; [reflexivity|]. split; reflexivity. Qed.
Lemma slices_rel nb k v : size_is nb v -> vrel nb k v (slices k v).
Proof. intros H. induction v as [|P v IH]; constructor; [apply slice_rel; apply H; left; auto|apply IH; intros Q HQ; apply H; right; auto]. Qed.
Lemma rel_slices nb k V v : vrel nb k V v -> size_is nb V /\ Forall2 same_part (slices k V) v.
Proof.
  induction 1 as [|P Q V v (E & T0 & T1 & T2 & TV) H (IH1 & IH2)]; [split; [intros P []|constructor]|]. split; [intros R [<-|HR]; auto|]. constructor; [|auto]. split; [auto|]. split; [auto|]. split; [auto|]. cbn [slice sp_mat m_n0 m_n1 m_at]. intros i j Hi Hj. apply TV; congruence.
Qed.

Lemma same_parts_trans A B C : Forall2 same_part A B -> Forall2 same_part B C -> Forall2 same_part A C.
Proof.
  intros H. revert C. induction H as [|P Q A B (E1 & E2 & E3 & E4) H IH]; intros C H2; inversion H2 as [|? R ? C' (K1 & K2 & K3 & K4) H3]; subst; constructor; [|auto]. split; [congruence|]. split; [congruence|]. split; [congruence|]. intros i j Hi Hj. rewrite E4 by auto. apply K4; congruence.
Qed.

Lemma bvstep_vec F n nb b x y : 1 <= n -> ginv b -> batch n nb x -> batch n nb y -> x <> [] -> y <> [] ->
  exists R b', cgb_vec F b x y = Ret (R, b') /\ ginv b' /\ size_is nb R /\ forall k, 0 <= k < nb -> exists r, cg_vec F b (slices k x) (slices k y) = Ret (r, b') /\ Forall2 same_part (slices k R) r.
Proof.
  intros Hn I (Hb & Sx & Ox) (_ & Sy & Oy) Nx Ny.
  assert (forall k, 0 <= k < nb -> exists R b' r, cgb_vec F b x y = Ret (R, b') /\ ginv b' /\ cg_vec F b (slices k x) (slices k y) = Ret (r, b') /\ vrel nb k R r) as H.
  { intros k Hk. destruct (cg_vec_ok F n b (slices k x) (slices k y) Hn I) as (r & b' & E & I' & _); try (apply one_ugood; auto; fail).
    destruct (cg_vec_sim nb k Hk F n b x y (slices k x) (slices k y) Hn I) with (t := (r, b')) as ((R & b2) & E2 & S1 & S2 & S3); auto; try (apply one_ugood; auto; fail); try (apply slices_rel; auto).
    - destruct x; [congruence|discriminate].
    - destruct y; [congruence|discriminate].
    - cbn [fst snd] in *. subst b2. exists R, b', r. auto. }
  destruct (H 0 ltac:(lia)) as (R & b' & r & E & I' & _ & V). exists R, b'. split; [auto|]. split; [auto|]. split; [apply (rel_slices nb 0 R r V)|]. intros k Hk. destruct (H k Hk) as (R2 & b2 & r2 & E2 & _ & E3 & V2). rewrite E in E2. apply Ret_inj in E2. injection E2 as <- <-. exists r2. split; [auto|]. apply (rel_slices nb k R r2 V2).
Qed.

Lemma bvstep_part F n nb b x y : 1 <= n -> ginv b -> batch n nb [x] -> batch n nb [y] ->
  exists R b', cgb_part F b x y = Ret (R, b') /\ ginv b' /\ size_is nb R /\ forall k, 0 <= k < nb -> exists r, cg_part F b (slice k x) (slice k y) = Ret (r, b') /\ Forall2 same_part (slices k R) r.
Proof.
  intros Hn I (Hb & Sx & Ox) (_ & Sy & Oy).
  assert (forall k, 0 <= k < nb -> exists R b' r, cgb_part F b x y = Ret (R, b') /\ ginv b' /\ cg_part F b (slice k x) (slice k y) = Ret (r, b') /\ vrel nb k R r) as H.
  { intros k Hk. specialize (Ox k Hk). specialize (Oy k Hk). apply one_ugood in Ox; auto. apply one_ugood in Oy; auto. destruct (cg_part_ok F n b (slice k x) (slice k y) Hn I) as (r & b' & E & I' & _); auto.
    destruct (cg_part_sim nb k Hk F n b x y (slice k x) (slice k y) Hn I) with (t := (r, b')) as ((R & b2) & E2 & S1 & S2 & S3); auto.
    - destruct Ox as ((G & _) & U). split; [apply G; left; auto|apply U; left; auto].
    - destruct Oy as ((G & _) & U). split; [apply G; left; auto|apply U; left; auto].
    - apply slice_rel. apply Sx. left; auto.
    - apply slice_rel. apply Sy. left; auto.
    - cbn [fst snd] in *. subst b2. exists R, b', r. auto. }
  destruct (H 0 ltac:(lia)) as (R & b' & r & E & I' & _ & V). exists R, b'. split; [auto|]. split; [auto|]. split; [apply (rel_slices nb 0 R r V)|]. intros k Hk. destruct (H k Hk) as (R2 & b2 & r2 & E2 & _ & E3 & V2). rewrite E in E2. apply Ret_inj in E2. injection E2 as <- <-. exists r2. split; [auto|]. apply (rel_slices nb k R r2 V2).
Qed.

Lemma bvstep_ok F q b : ginv b -> legal_bvq q -> exists a b', bvstep F q b = Ret (a, b') /\ ginv b'.
Proof.
  intros I L. destruct q as [q|x y|x y]; cbn [legal_bvq bvstep] in *.
  - destruct (cvstep_ok F q b I L) as (a & b' & E & I'). rewrite E. cbn. eauto.
  - destruct L as (n & nb & Hn & X & Y & Nx & Ny). destruct (bvstep_vec F n nb b x y Hn I X Y Nx Ny) as (R & b' & E & I' & _). rewrite E. cbn. eauto.
  - destruct L as (n & nb & Hn & X & Y). destruct (bvstep_part F n nb b x y Hn I X Y) as (R & b' & E & I' & _). rewrite E. cbn. eauto.
Qed.

Lemma bvrun_last F qs q : forall b, ginv b -> Forall legal_bvq qs -> exists aa b', ginv b' /\ bvrun F (qs ++ [q]) b = (r <- bvstep F q b' ;; Ret (aa ++ [fst r], snd r)).
Proof.
  induction qs as [|p qs IH]; intros b I L; cbn [app bvrun].
  - exists [], b. split; [auto|]. destruct (bvstep F q b) as [r| | |]; reflexivity.
  - inversion L as [|? ? L1 L2]; subst. destruct (bvstep_ok F p b I L1) as (a & b1 & E & I1). rewrite E. cbn [bind fst snd]. destruct (IH b1 I1 L2) as (aa & b' & I' & E'). exists (a :: aa), b'. split; [auto|]. rewrite E'. destruct (bvstep F q b') as [r| | |]; reflexivity.
Qed.

(* the value of a product does not depend on the state of the bank *)
Lemma pr_same F n x y R R' : 1 <= n -> pr F n x y R -> pr F n x y R' -> Forall2 same_part R R'.
Proof. exact (pr_unique F n x y R R'). Qed.

Theorem batched_vectors F n nb x y qs : 1 <= n -> batch n nb x -> batch n nb y -> x <> [] -> y <> [] -> Forall legal_bvq qs ->
  exists aa st R, bvrun F (qs ++ [BVec x y]) cg0 = Ret (aa ++ [RVecB R], st) /\ size_is nb R /\
  forall k, 0 <= k < nb -> exists r, product_is F (slices k x) (slices k y) r /\ Forall2 same_part (slices k R) r.
Proof.
  intros Hn X Y Nx Ny L. destruct (bvrun_last F qs (BVec x y) cg0 ginv0 L) as (aa & b & I & E). cbn [bvstep] in E. destruct (bvstep_vec F n nb b x y Hn I X Y Nx Ny) as (R & b' & E1 & I' & S & H). rewrite E1 in E. cbn [bind fst snd] in E. exists aa, b', R. split; [auto|]. split; [auto|].
  intros k Hk. destruct (H k Hk) as (r & Er & Fr). destruct X as (_ & _ & X), Y as (_ & _ & Y). specialize (X k Hk). specialize (Y k Hk). destruct (product_exists F n (slices k x) (slices k y) [] Hn X Y (Forall_nil _)) as (aa2 & st & r2 & E2 & P2). exists r2. split; [exists [], aa2, st; split; [constructor|exact E2]|].
  apply one_ugood in X; auto. apply one_ugood in Y; auto. destruct (cg_vec_ok F n b _ _ Hn I X Y) as (r3 & b3 & E3 & _ & P3). rewrite Er in E3. apply Ret_inj in E3. injection E3 as <- _. eapply same_parts_trans; [exact Fr|]. apply (pr_same F n (slices k x) (slices k y)); auto.
Qed.

Theorem batched_parts F n nb x y qs : 1 <= n -> batch n nb [x] -> batch n nb [y] -> Forall legal_bvq qs ->
  exists aa st R, bvrun F (qs ++ [BPart x y]) cg0 = Ret (aa ++ [RVecB R], st) /\ size_is nb R /\
  forall k, 0 <= k < nb -> exists r, product_is F [slice k x] [slice k y] r /\ Forall2 same_part (slices k R) r.
Proof.
  intros Hn X Y L. destruct (bvrun_last F qs (BPart x y) cg0 ginv0 L) as (aa & b & I & E). cbn [bvstep] in E. destruct (bvstep_part F n nb b x y Hn I X Y) as (R & b' & E1 & I' & S & H). rewrite E1 in E. cbn [bind fst snd] in E. exists aa, b', R. split; [auto|]. split; [auto|].
  intros k Hk. destruct (H k Hk) as (r & Er & Fr). destruct X as (_ & _ & X), Y as (_ & _ & Y). specialize (X k Hk). specialize (Y k Hk). destruct (product_exists F n (slices k [x]) (slices k [y]) [] Hn X Y (Forall_nil _)) as (aa2 & st & r2 & E2 & P2). exists r2. split; [exists [], aa2, st; split; [constructor|exact E2]|].
  apply one_ugood in X; auto. apply one_ugood in Y; auto. destruct (cg_part_ok F n b _ _ Hn I X Y) as (r3 & b3 & E3 & _ & P3). rewrite Er in E3. apply Ret_inj in E3. injection E3 as <- _. eapply same_parts_trans; [exact Fr|]. apply (pr_same F n [slice k x] [slice k y]); auto.
Qed.

(* the action on a batch *)
Section Act.
  Variables (n nb : Z) (p : list Z) (act : partb -> outcome ten).
  Hypothesis Hn : 1 <= n.
  Hypothesis Hp : is_perm n p.

  Definition bmoved (P P' : partb) : Prop := pb_irr P' = pb_irr P /\ tdims (pb_t P) (pb_t P') /\
    forall a i b, 0 <= a < t_n0 (pb_t P) -> 0 <= i < io_d (pb_irr P) -> 0 <= b < t_n2 (pb_t P) -> t_at (pb_t P') a i b = rsum (io_d (pb_irr P)) (fun k => (rho n (pb_irr P) p i k * t_at (pb_t P) a k b)%R).

  Lemma bmoved_fold V : (forall P, In P V -> exists T, act P = Ret T /\ bmoved P (mkPartb (pb_irr P) T)) ->
    exists V', foldM (fun P R => A <- (T <- act P ;; Ret (mkPartb (pb_irr P) T)) ;; Ret (R ++ [A])) V [] = Ret V' /\ Forall2 bmoved V V'.
  Proof.
    intros H. assert (forall acc, exists V', foldM (fun P R => A <- (T <- act P ;; Ret (mkPartb (pb_irr P) T)) ;; Ret (R ++ [A])) V acc = Ret (acc ++ V') /\ Forall2 bmoved V V') as K; [|apply (K [])].
    induction V as [|P V IH]; intros acc; cbn [foldM]; [exists []; rewrite app_nil_r; auto|]. destruct (H P ltac:(left; auto)) as (T & ET & M). rewrite ET. cbn [bind]. destruct (IH ltac:(intros; apply H; right; auto) (acc ++ [mkPartb (pb_irr P) T])) as (V' & E & F).
    exists (mkPartb (pb_irr P) T :: V'). rewrite E, <- app_assoc. split; [reflexivity|constructor; auto].
  Qed.

  Lemma bmoved_slices V V' : batch_any n nb V -> Forall2 bmoved V V' -> size_is nb V' /\ forall k, 0 <= k < nb -> exists v', sv_apply p (slices k V) = Ret v' /\ Forall2 same_part (slices k V') v'.
  Proof.
    intros (Hb & Sz & B) F. split.
    - clear B. induction F as [|P P' V V' (_ & (D & _) & _) F IH]; [intros Q []|]. intros Q [<-|HQ]; [rewrite D; apply Sz; left; auto|apply IH; auto; intros R HR; apply Sz; right; auto].
    - intros k Hk. assert (forall Q, In Q (slices k V) -> pgood n Q) as G. { intros Q HQ. apply in_map_iff in HQ as (P & <- & HP). destruct (B k P Hk HP) as (l & m & Pl & Po). apply (part_pgood n l m _ Pl Hn Po). }
      destruct (apply_pure n p (slices k V) Hn Hp G) as (v' & Ev & Fv). exists v'. split; [auto|]. clear - F Fv Hk Sz G. revert v' Fv. induction F as [|P P' V V' (E1 & (D0 & D1 & D2) & M) F IH]; intros v' Fv; inversion Fv as [|? Q' ? v2 (K1 & K2 & K3 & K4) F2]; subst; [constructor|].
      destruct (G (slice k P) ltac:(left; auto)) as (_ & _ & G3 & _). cbn [slice sp_mat m_n0] in G3.
      constructor; [|apply IH; auto; [intros R HR; apply Sz; right; auto|intros R HR; apply G; right; auto]]. cbn [slice sp_irr sp_mat m_n0 m_n1 m_at] in *. unfold same_part. cbn [slice sp_irr sp_mat m_n0 m_n1 m_at]. split; [congruence|]. split; [congruence|]. split; [congruence|].
      intros i j Hi Hj. destruct (G (slice k P) ltac:(left; auto)) as (_ & E & _). cbn [slice sp_irr] in E. rewrite M; [|rewrite (Sz P) by (left; auto); lia|rewrite E; lia|lia].
      symmetry. rewrite K4 by lia. rewrite E. reflexivity.
  Qed.
End Act.

Theorem batched_action n nb p V : 1 <= n -> is_perm n p -> batch_any n nb V -> exists V', vb_apply p V = Ret V' /\ size_is nb V' /\
  forall k, 0 <= k < nb -> exists v', sv_apply p (slices k V) = Ret v' /\ Forall2 same_part (slices k V') v'.
Proof.
  intros Hn Hp B. destruct (bmoved_fold n p (fun P => irr_mid_perm (pb_irr P) p (pb_t P)) V) as (V' & E & F).
  - intros P HP. destruct B as (Hb & Sz & B). destruct (B 0 P ltac:(lia) HP) as (l & m & Pl & Po). destruct (part_good n l m _ Pl Hn Po) as (E1 & E2 & E3 & E4). cbn [slice sp_irr sp_mat m_n0 m_n1] in *. destruct (mkirr_ok n l Pl Hn) as (_ & G).
    rewrite <- E1 in G. destruct (mid_perm_ok n l (pb_irr P) G p (pb_t P) Hp) as (T & ET & D & VT); try (rewrite ?(Sz P HP), ?E1; auto; lia). exists T. split; [auto|]. split; [auto|]. split; [exact D|exact VT].
  - exists V'. split; [exact E|]. apply (bmoved_slices n nb p Hn Hp V V' B F).
Qed.

Theorem batched_action_transp n nb a b V : 1 <= n -> 1 <= a <= n -> 1 <= b <= n -> batch_any n nb V -> exists c V', p_transposition n a b = Ret c /\ vb_apply_transp (mkTransp a b) V = Ret V' /\ size_is nb V' /\
  forall k, 0 <= k < nb -> exists v', sv_apply c (slices k V) = Ret v' /\ Forall2 same_part (slices k V') v'.
Proof.
  intros Hn Ha Hb' B. exists (ptransp n a b). assert (is_perm n (ptransp n a b)) as Hp by (apply is_perm_ptransp; auto). destruct (bmoved_fold n (ptransp n a b) (fun P => irr_mid_transp (pb_irr P) (mkTransp a b) (pb_t P)) V) as (V' & E & F).
  - intros P HP. destruct B as (Hb & Sz & B). destruct (B 0 P ltac:(lia) HP) as (l & m & Pl & Po). destruct (part_good n l m _ Pl Hn Po) as (E1 & E2 & E3 & E4). cbn [slice sp_irr sp_mat m_n0 m_n1] in *. destruct (mkirr_ok n l Pl Hn) as (_ & G).
    rewrite <- E1 in G. destruct (mid_transp_ok n l (pb_irr P) G a b (pb_t P)) as (T & ET & D & VT); try (rewrite ?(Sz P HP), ?E1; auto; lia). exists T. split; [auto|]. split; [auto|]. split; [exact D|exact VT].
  - exists V'. split; [apply p_transposition_ok; auto|]. split; [exact E|]. apply (bmoved_slices n nb _ Hn Hp V V' B F).
Qed.

Theorem batched_action_cycle n nb a b P : 1 <= n -> 1 <= a <= n -> 1 <= b <= n -> batch_any n nb [P] -> exists c P', p_contiguous_cycle n a b = Ret c /\ pb_apply_cycle (mkCyc a b) P = Ret P' /\ size_is nb [P'] /\
  forall k, 0 <= k < nb -> exists v', sv_apply c (slices k [P]) = Ret v' /\ Forall2 same_part (slices k [P']) v'.
Proof.
  intros Hn Ha Hb' B. exists (pcyc n a b). assert (is_perm n (pcyc n a b)) as Hp by (apply is_perm_pcyc; auto). 
  pose proof B as (Hb & Sz & BB). destruct (BB 0 P ltac:(lia) ltac:(left; auto)) as (l & m & Pl & Po). destruct (part_good n l m _ Pl Hn Po) as (E1 & E2 & E3 & E4). cbn [slice sp_irr sp_mat m_n0 m_n1] in *. destruct (mkirr_ok n l Pl Hn) as (_ & G).
  rewrite <- E1 in G. destruct (mid_cycle_ok n l (pb_irr P) G a b (pb_t P)) as (T & ET & D & VT); try (rewrite ?(Sz P (or_introl eq_refl)), ?E1; auto; lia). exists (mkPartb (pb_irr P) T). split; [apply p_contiguous_cycle_ok; auto|]. split; [unfold pb_apply_cycle; rewrite ET; reflexivity|].
  apply (bmoved_slices n nb _ Hn Hp [P] [mkPartb (pb_irr P) T] B). constructor; [|constructor]. split; [auto|]. split; [exact D|exact VT].
Qed.

Theorem batched_down n nb P : 2 <= n -> batch_any n nb [P] -> exists V, vb_down P = Ret V /\ size_is nb V /\
  forall k, 0 <= k < nb -> exists v, sv_down (slice k P) = Ret v /\ Forall2 same_part (slices k V) v.
Proof.
  intros Hn (Hb & Sz & B). assert (forall k, 0 <= k < nb -> exists V v, vb_down P = Ret V /\ sv_down (slice k P) = Ret v /\ vrel nb k V v) as H.
  { intros k Hk. destruct (B k P Hk ltac:(left; auto)) as (l & m & Pl & Po). apply (down_sim nb k Hk n P (slice k P) Hn); [|apply slice_rel; apply Sz; left; auto]. apply (part_pgood n l m _ Pl ltac:(lia) Po). }
  destruct (H 0 ltac:(lia)) as (V & v & E & _ & R). exists V. split; [auto|]. split; [apply (rel_slices nb 0 V v R)|]. intros k Hk. destruct (H k Hk) as (V2 & v2 & E2 & E3 & R2). assert (V2 = V) by congruence. subst V2. exists v2. split; [auto|]. apply (rel_slices nb k V v2 R2).
Qed.

Theorem batched_type nb V k : size_is nb V -> vb_type V = sv_type (slices k V).
Proof. intros H. apply (type_eq nb k). apply slices_rel. auto. Qed.

Theorem sizes_differ F b P Q x y : t_n0 (pb_t P) <> t_n0 (pb_t Q) -> bvrun F [BVec (P :: x) (Q :: y)] b = Abort /\ bvrun F [BPart P Q] b = Abort.
Proof.
  intros Ne. unfold bvrun, bvstep, cgb_vec, cgb_vec_with, cgb_part. cbn [vb_getb bind]. unfold sameb2, pb_b. rewrite (proj2 (Z.eqb_neq _ _) Ne). split; reflexivity.
Qed.

Theorem batched_empty F y : bvrun F [BVec [] y] cg0 = Abort /\ cvrun F [CVec [] []] cg0 = Ret ([RVec []], cg0).
Proof. split; reflexivity. Qed.
