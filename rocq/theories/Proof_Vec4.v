(* SnVec: cat. *)
From Coq Require Import ZArith List Bool Lia Reals Lra Sorting.Sorted Permutation.
From Verif Require Import Model_Base Model_Perm Model_Sn Model_Part Model_Comb Model_Tab Model_Irrep Model_Type Model_FFT Model_Vec.
From Verif Require Import Spec_Perm Spec_Part Spec_Tab Spec_Rep Spec_Four Spec_Type Spec_FFT Spec_Vec.
From Verif Require Import Proof_Base Proof_Perm Proof_Sn Proof_Part Proof_PartProps Proof_Tab Proof_TabProps Proof_Cycles Proof_Cox Proof_Yor Proof_Sum Proof_Irrep Proof_Rep Proof_Mat Proof_IrrepProps Proof_JM Proof_Conn Proof_Schur Proof_Restr Proof_UpDown Proof_Complete Proof_CharBank Proof_Type Proof_FFTlay Proof_FFTlay2 Proof_FFTblk Proof_FFTstep Proof_Vec Proof_Vec2 Proof_Vec3.
Import ListNotations.
Open Scope Z_scope.

Lemma rd_at' {A} (a : list A) x b k : k = zlen a -> rd (a ++ x :: b) k = Ret x.
Proof. intros ->. apply rd_at. Qed.

Lemma wr_at' {A} (a : list A) x b y k : k = zlen a -> wr (a ++ x :: b) k y = Ret (a ++ y :: b).
Proof. intros ->. apply wr_at. Qed.

Lemma foldM_concat {S I} (body : I -> S -> outcome S) xss s : foldM (fun xs s => foldM body xs s) xss s = foldM body (concat xss) s.
Proof. revert s. induction xss as [|xs xss IH]; intros s; cbn [concat]; [reflexivity|]. rewrite foldM_app. cbn [foldM]. destruct (foldM body xs s); cbn [bind]; auto. Qed.

Lemma cols_snoc ps P mu : columns_of (ps ++ [P]) mu = columns_of ps mu + if pdec (key P) mu then m_n1 (sp_mat P) else 0.
Proof.
  unfold columns_of. rewrite filter_app, map_app. change (fold_right Z.add 0) with zsum. rewrite zsum_app. cbn [filter]. fold (key P).
  destruct (list_eq_dec Z.eq_dec (key P) mu), (pdec (key P) mu); try contradiction; cbn; lia.
Qed.

Lemma cols_app ps qs mu : columns_of (ps ++ qs) mu = columns_of ps mu + columns_of qs mu.
Proof. unfold columns_of. rewrite filter_app, map_app. change (fold_right Z.add 0) with zsum. rewrite zsum_app. lia. Qed.

Lemma cols_cons P qs mu : columns_of (P :: qs) mu = (if pdec (key P) mu then m_n1 (sp_mat P) else 0) + columns_of qs mu.
Proof. change (P :: qs) with ([] ++ [P] ++ qs). rewrite app_assoc, cols_app, cols_snoc. change (columns_of [] mu) with 0. lia. Qed.

Lemma cols_nonneg ps mu : (forall P, In P ps -> 0 <= m_n1 (sp_mat P)) -> 0 <= columns_of ps mu.
Proof. intros H. apply zsum_nonneg. intros y Hy. apply in_map_iff in Hy as (P & <- & HP). apply filter_In in HP as (HP & _). auto. Qed.

Lemma cols_msum ps mu : columns_of ps mu = msum (map (fun P => (key P, m_n1 (sp_mat P))) ps) mu.
Proof. induction ps as [|P ps IH]; auto. rewrite cols_cons. cbn [map]. rewrite msum_cons, IH. reflexivity. Qed.

(* a part of the right shape *)
Definition pgood (n : Z) (P : spart) : Prop := is_part n (key P) /\ sp_irr P = mkirr n (key P) /\ m_n0 (sp_mat P) = io_d (mkirr n (key P)) /\ 0 <= m_n1 (sp_mat P).

Lemma part_pgood n l m P : is_part n l -> 1 <= n -> part_of l m P -> pgood n P /\ key P = l /\ m_n1 (sp_mat P) = m.
Proof.
  intros Hl Hn H. destruct (part_good n l m P Hl Hn H) as (E1 & E2 & E3 & E4). assert (key P = l) as K by (unfold key; rewrite E1; reflexivity).
  unfold pgood. rewrite K. split; [|split; auto]. split; [auto|]. split; [auto|]. split; [auto|lia].
Qed.

(* what the part Q made from Q0 holds after the parts ps *)
Definition catted (ps : list spart) (Q0 Q : spart) : Prop :=
  sp_irr Q = sp_irr Q0 /\ m_n0 (sp_mat Q) = m_n0 (sp_mat Q0) /\ m_n1 (sp_mat Q) = m_n1 (sp_mat Q0) /\
  (forall a P b i j, ps = a ++ P :: b -> key P = key Q0 -> 0 <= i < m_n0 (sp_mat P) -> 0 <= j < m_n1 (sp_mat P) ->
     m_at (sp_mat Q) i (columns_of a (key P) + j) = m_at (sp_mat P) i j) /\
  (forall i j, columns_of ps (key Q0) <= j -> m_at (sp_mat Q) i j = 0%R).

Lemma cat_type n ps : (forall P, In P ps -> is_part n (key P)) -> exists tau, foldM (fun P tau => ty_add tau (io_lambda (sp_irr P)) (m_n1 (sp_mat P))) ps [] = Ret tau /\
  type_of n tau /\ (forall l, In l (map fst tau) <-> In l (map key ps)) /\ forall l, mult tau l = columns_of ps l.
Proof.
  intros H. destruct (adds_ok n (map (fun P => (key P, m_n1 (sp_mat P))) ps) [] (type_nil n)) as (tau & E & T & I & A).
  { rewrite map_map. apply Forall_forall. intros l Hl. apply in_map_iff in Hl as (P & <- & HP). apply H; auto. }
  exists tau. rewrite foldM_mapp in E. split; [exact E|]. split; [auto|]. split.
  - intros l. rewrite I, map_map. cbn. tauto.
  - intros l. rewrite A, cols_msum. cbn. lia.
Qed.

Lemma mult_in t l m : NoDup (map fst t) -> In (l, m) t -> mult t l = m.
Proof.
  induction t as [|(k, c) t IH]; intros N I; [destruct I|]. cbn [map fst] in N. inversion N as [|? ? N1 N2]; subst. cbn [mult].
  destruct I as [I|I].
  - injection I as -> ->. destruct (list_eq_dec Z.eq_dec l l); congruence.
  - destruct (list_eq_dec Z.eq_dec k l) as [->|]; auto. destruct N1. apply (in_map fst) in I. exact I.
Qed.

Lemma Forall2_split_l {A B} (R : A -> B -> Prop) a x b l' : Forall2 R (a ++ x :: b) l' -> exists a' y b', l' = a' ++ y :: b' /\ Forall2 R a a' /\ R x y /\ Forall2 R b b'.
Proof.
  intros F. apply Forall2_app_inv_l in F as (a' & t & Fa & Ft & ->). inversion Ft as [|? y ? b' H1 H2]; subst. eauto 8.
Qed.

Lemma cat_pure n vs : 1 <= n -> (forall P, In P (concat vs) -> pgood n P) ->
  exists tau R, sv_cat vs = Ret R /\ type_of n tau /\ (forall l, In l (map fst tau) <-> In l (map key (concat vs))) /\ (forall l, mult tau l = columns_of (concat vs) l) /\
    Forall2 (catted (concat vs)) (map (zp n) tau) R.
Proof.
  intros Hn Hg. unfold sv_cat. rewrite foldM_concat. destruct (cat_type n (concat vs)) as (tau & E & T & I & A); [intros P HP; apply Hg; auto|].
  rewrite E. cbn [bind]. pose proof (type_nodup n tau T) as Nt. pose proof T as (_ & Tp). rewrite Forall_forall in Tp.
  assert (forall p, In p tau -> is_part n (fst p) /\ snd p = columns_of (concat vs) (fst p) /\ 0 <= snd p) as Tq.
  { intros (l, m) Hp. cbn [fst snd]. split; [apply Tp; apply (in_map fst) in Hp; exact Hp|].
    assert (m = columns_of (concat vs) l) as -> by (rewrite <- A; symmetry; apply mult_in; auto). split; [auto|]. apply cols_nonneg. intros P HP. apply Hg; auto. }
  rewrite (sv_zero_ok n) by (auto; intros p Hp; destruct (Tq p Hp) as (? & ? & ?); auto). cbn [bind]. rewrite foldM_concat.
  exists tau. set (ps := concat vs) in *. clearbody ps. set (R0 := map (zp n) tau).
  assert (map key R0 = map fst tau) as KR by (unfold R0; rewrite map_map; apply map_ext; reflexivity).
  match goal with |- context [foldM ?body _ _] => destruct (foldM_prefix (fun pre st => 
     snd st = map (fun Q => columns_of pre (key Q)) R0 /\ Forall2 (catted pre) R0 (fst st)) body ps (R0, repeat 0 (length R0))) as ((R & offs) & ER & _ & F) end.
  - cbn [fst snd]. split; [clear; induction R0; cbn; [auto|f_equal; auto]|]. unfold R0. clear. induction tau as [|p tau IH]; cbn [map]; constructor; auto.
    split; [auto|]. split; [auto|]. split; [auto|]. split; [|auto]. intros a P b i j H. destruct a; discriminate.
  - intros pre P post (R & offs) Ep (Eo & F). cbn [fst snd] in Eo, F. subst offs.
    assert (In P ps) as HP by (rewrite Ep; apply in_app_iff; right; left; auto). destruct (Hg P HP) as (P1 & P2 & P3 & P4).
    assert (In (key P) (map key R0)) as IK by (rewrite KR; apply I, in_map; auto). apply in_map_iff in IK as (Q0 & KQ & IQ).
    apply in_split in IQ as (a0 & b0 & E0).
    pose proof F as F'. rewrite E0 in F'. apply Forall2_split_l in F' as (a & D & b & -> & Fa & FD & Fb).
    pose proof FD as (D1 & D2 & D3 & D4 & D5).
    assert (key D = key P) as KD by (unfold key; rewrite D1; exact KQ).
    assert (map key (a ++ D :: b) = map fst tau) as KR'. { rewrite <- KR. clear - F. revert F. generalize (a ++ D :: b) as R. intros R F. induction F as [|? ? ? ? H F IH]; cbn; [auto|]. rewrite IH. f_equal. unfold key. rewrite (proj1 H). auto. }
    assert (length a0 = length a) as La by (eapply Forall2_len; eauto).
    fold (key P).
    assert (sv_index (a ++ D :: b) (key P) = zlen a) as ->.
    { rewrite <- KD. apply (index_split n (a ++ D :: b) a D b); [reflexivity| |].
      - intros Q HQ. apply Tp. rewrite <- KR'. apply in_map. auto.
      - apply (key_split (a ++ D :: b) a D b); [rewrite KR'; auto|auto]. }
    assert (zlen a = zlen (map (fun Q => columns_of pre (key Q)) a0)) as Lz by (unfold zlen; rewrite map_length; lia).
    cbv beta iota zeta. rewrite rd_at. cbn [bind].
    assert (map (fun Q => columns_of pre (key Q)) R0 = map (fun Q => columns_of pre (key Q)) a0 ++ columns_of pre (key Q0) :: map (fun Q => columns_of pre (key Q)) b0) as EM by (rewrite E0, map_app; reflexivity).
    rewrite EM. rewrite (rd_at' _ _ _ _ Lz). cbn [bind].
    assert (exists m, In (key P, m) tau /\ m_n1 (sp_mat D) = m) as (m & Im & Em).
    { assert (In Q0 R0) as IQ by (rewrite E0; apply in_app_iff; right; left; auto). unfold R0 in IQ. apply in_map_iff in IQ as ((l, m) & EQ & Ip). exists m. rewrite D3, <- EQ. split; [|reflexivity].
      replace (key P) with l; [auto|]. rewrite <- KQ, <- EQ. reflexivity. }
    destruct (Tq _ Im) as (_ & Tm & _). cbn [fst snd] in Tm.
    assert (m_n0 (sp_mat D) = io_d (mkirr n (key P))) as D0.
    { assert (In Q0 R0) as IQ by (rewrite E0; apply in_app_iff; right; left; auto). unfold R0 in IQ. apply in_map_iff in IQ as ((l, m') & EQ & Ip). rewrite D2, <- KQ, <- EQ. reflexivity. }
    assert (0 <= columns_of pre (key P) /\ columns_of pre (key P) + m_n1 (sp_mat P) <= m_n1 (sp_mat D)) as (C1 & C2).
    { split; [apply cols_nonneg; intros; apply Hg; rewrite Ep; apply in_app_iff; auto|]. rewrite Em, Tm, Ep, cols_app, cols_cons. destruct (pdec (key P) (key P)); [|congruence].
      assert (0 <= columns_of post (key P)) by (apply cols_nonneg; intros; apply Hg; rewrite Ep; apply in_app_iff; right; right; auto). lia. }
    rewrite KQ.
    pose proof (io_d_nonneg (mkirr n (key P))) as Hd.
    destruct (add_to_block_ok (sp_mat D) 0 (columns_of pre (key P)) (sp_mat P)) as (A' & EA & N0 & N1 & VA); try lia.
    rewrite EA. cbn [bind]. rewrite wr_at. cbn [bind].
    rewrite (wr_at' _ _ _ _ _ Lz). cbn [bind].
    eexists. split; [reflexivity|]. cbn [fst snd]. split.
    + rewrite <- (map_upd (columns_of pre) (columns_of (pre ++ [P])) R0 a0 Q0 b0 (columns_of pre (key P) + m_n1 (sp_mat P))); [reflexivity|rewrite KR; auto|auto| |].
      * rewrite KQ, cols_snoc. destruct (pdec (key P) (key P)); congruence.
      * intros mu Hmu. rewrite cols_snoc. destruct (pdec (key P) mu); [congruence|lia].
    + rewrite E0. assert (NoDup (map key R0)) as NR by (rewrite KR; auto). destruct (key_split R0 a0 Q0 b0 NR E0) as (Na & Nb). rewrite KQ in Na, Nb.
      assert (forall Q1 Q2, key Q1 <> key P -> catted pre Q1 Q2 -> catted (pre ++ [P]) Q1 Q2) as Other.
      { intros Q1 Q2 Nk (X1 & X2 & X3 & X4 & X5). split; [auto|]. split; [auto|]. split; [auto|]. split.
        - intros u W w i j Eu Kw Hi Hj. destruct (nil_or_snoc w) as [->|(w' & z & ->)].
          + apply app_inj_tail in Eu as (-> & ->). congruence.
          + rewrite app_comm_cons, app_assoc in Eu. apply app_inj_tail in Eu as (-> & ->). eapply X4; eauto.
        - intros i j Hj. apply X5. rewrite cols_snoc in Hj. destruct (pdec (key P) (key Q1)); [congruence|lia]. }
      apply Forall2_app; [|constructor].
      * eapply Forall2_mono; [|exact Fa]. intros x y Hx. apply Other. intros K. apply Na. rewrite <- K. apply in_map; auto.
      * split; [auto|]. cbn [sp_mat]. split; [congruence|]. split; [congruence|]. split.
        -- intros u W w i j Eu Kw Hi Hj. rewrite VA. destruct (nil_or_snoc w) as [->|(w' & z & ->)].
           ++ apply app_inj_tail in Eu as (-> & ->). rewrite Z.sub_0_r. replace (columns_of u (key W) + j - columns_of u (key W)) with j by lia.
              rewrite (proj2 (inrange_iff _ _) Hi), (proj2 (inrange_iff _ _) Hj). cbn [andb]. rewrite D5 by (rewrite KQ; lia). ring.
           ++ rewrite app_comm_cons, app_assoc in Eu. apply app_inj_tail in Eu as (-> & ->).
              replace (inrange (columns_of u (key W) + j - columns_of (u ++ W :: w') (key z)) (m_n1 (sp_mat z))) with false; [rewrite andb_false_r; eapply D4; eauto|].
              symmetry. apply not_true_iff_false. rewrite inrange_iff, cols_app, cols_cons. rewrite Kw, KQ. destruct (pdec (key z) (key z)) as [|N]; [|congruence].
              assert (0 <= columns_of w' (key z)) by (apply cols_nonneg; intros; apply Hg; rewrite Ep; apply in_app_iff; left; apply in_app_iff; right; right; auto). lia.
        -- intros i j Hj. rewrite KQ, cols_snoc in Hj. destruct (pdec (key P) (key P)); [|congruence]. rewrite VA.
           replace (inrange (j - columns_of pre (key P)) (m_n1 (sp_mat P))) with false by (unfold inrange; lia). rewrite andb_false_r. apply D5. rewrite KQ. lia.
      * eapply Forall2_mono; [|exact Fb]. intros x y Hx. apply Other. intros K. apply Nb. rewrite <- K. apply in_map; auto.
  - exists R. rewrite ER. cbn [bind fst]. auto.
Qed.
