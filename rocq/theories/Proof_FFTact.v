(* The two ways the transform lets a cycle act on a slice of a part. *)
From Coq Require Import ZArith List Bool Lia ZifyBool ZifyNat Reals Lra.
From Verif Require Import Model_Base Model_Perm Model_Sn Model_Part Model_Comb Model_Tab Model_Irrep Model_Fun Model_FFT.
From Verif Require Import Spec_Perm Spec_Part Spec_Tab Spec_Rep Spec_Four.
From Verif Require Import Proof_Base Proof_Perm Proof_Sn Proof_Part Proof_PartProps Proof_Tab Proof_TabProps Proof_Cycles Proof_Cox Proof_Yor Proof_Sum
  Proof_Irrep Proof_Rep Proof_Mat Proof_IrrepProps Proof_JM Proof_Conn Proof_Schur Proof_Restr Proof_UpDown Proof_Complete Proof_View Proof_ViewProps.
Import ListNotations.
Open Scope Z_scope.

(* the cycle acts on the first index, column by column, by the map [G] *)
Definition act_by (act : irr -> ccycle -> ten -> outcome ten) (n : Z) (G : list Z -> Z -> Z -> (Z -> R) -> Z -> R) : Prop :=
  (forall l a b f f' i, (forall q, 0 <= q < io_d (mkirr n l) -> f q = f' q) -> 0 <= i < io_d (mkirr n l) -> G l a b f i = G l a b f' i) /\
  forall l T a b, is_part n l -> t_n0 T = io_d (mkirr n l) -> 0 <= t_n1 T -> 0 <= t_n2 T -> 1 <= a <= n -> 1 <= b <= n ->
  exists T', act (mkirr n l) (mkCyc a b) T = Ret T' /\ tdims T T' /\
    forall i s k, 0 <= i < t_n0 T -> 0 <= s < t_n1 T -> 0 <= k < t_n2 T -> t_at T' i s k = G l a b (fun q => t_at T q s k) i.

(* the cycle acts by its matrix on the first index *)
Definition moved (n : Z) (l : list Z) (p : list Z) (T T' : ten) : Prop :=
  tdims T T' /\ forall i s k, 0 <= i < t_n0 T -> 0 <= s < t_n1 T -> 0 <= k < t_n2 T ->
    t_at T' i s k = rsum (io_d (mkirr n l)) (fun q => (rr n l p i q * t_at T q s k)%R).

Definition act_ok (act : irr -> ccycle -> ten -> outcome ten) (n : Z) : Prop := forall l T a b,
  is_part n l -> t_n0 T = io_d (mkirr n l) -> 0 <= t_n1 T -> 0 <= t_n2 T -> 1 <= a <= n -> 1 <= b <= n ->
  exists T', act (mkirr n l) (mkCyc a b) T = Ret T' /\ moved n l (pcyc n a b) T T'.

Definition cycmat (n : Z) (l : list Z) (a b : Z) (f : Z -> R) (i : Z) : R := rsum (io_d (mkirr n l)) (fun q => (rr n l (pcyc n a b) i q * f q)%R).

Lemma act_ok_by act n : act_ok act n -> act_by act n (cycmat n).
Proof. intros H. split; [|exact H]. intros l a b f f' i E Hi. apply rsum_ext. intros q Hq. rewrite E by auto. reflexivity. Qed.

Lemma view_act_ok n : 1 <= n <= 4 -> act_ok irr_view_cycle n.
Proof.
  intros Hn l T a b P N0 N1 N2 Ha Hb. destruct (mkirr_ok n l P ltac:(lia)) as (E & G).
  destruct (view_cycle_ok n l (mkirr n l) G) with (a := a) (b := b) (T := T) as (T' & ET & D & V); auto.
  { intros tau Ht. apply (pairs_nest n l); auto. eapply small_overlap; eauto. }
  exists T'. split; auto. split; auto. intros i s k Hi Hs Hk. rewrite V by lia. reflexivity.
Qed.

Lemma rows_step n l a b T s : is_part n l -> 1 <= n -> t_n0 T = io_d (mkirr n l) -> 0 <= s < t_n1 T -> 0 <= t_n2 T -> 1 <= a <= n -> 1 <= b <= n ->
  exists T', (if a <=? b then mp_apply_cycle s 1 (mkCyc a b) (mkMpart (mkirr n l) T) else mp_apply_cycle_inv s 1 (ccycle_inv (mkCyc a b)) (mkMpart (mkirr n l) T))
     = Ret (mkMpart (mkirr n l) T') /\ tdims T T' /\
  forall i s' k, 0 <= i < t_n0 T -> 0 <= s' < t_n1 T -> 0 <= k < t_n2 T ->
    t_at T' i s' k = if s' =? s then rsum (io_d (mkirr n l)) (fun q => (rr n l (pcyc n a b) i q * t_at T q s k)%R) else t_at T i s' k.
Proof.
  intros P Hn N0 Hs N2 Ha Hb. destruct (mkirr_ok n l P Hn) as (E & G). set (o := mkirr n l) in *. set (m := t_n2 T). set (N := t_n1 T) in *.
  assert (exists A, (if a <=? b then act_cycle_block (fun t => irr_apply_block o t (s * m) ((s + 1) * m)) (mkCyc a b) (ten_mat T)
                     else act_cycle_inv (fun t => irr_apply_block o t (s * m) ((s + 1) * m)) (mkCyc b a) (ten_mat T)) = Ret A /\
     (m_n0 A = io_d o /\ m_n1 A = N * m) /\ forall c i, 0 <= i < io_d o -> m_at A i c = if incols (s * m) ((s + 1) * m) c then Phi n (pcyc n a b) (fcol o (fun i => m_at (ten_mat T) i c)) (tb o i) else m_at (ten_mat T) i c) as (A & EA & (D0 & D1) & V).
  { destruct (Z.leb_spec a b) as [L|L].
    - apply (acts_cycle_block n l o G _ _ _ _ (acts_block n l o G (s * m) ((s + 1) * m) (N * m) ltac:(nia) ltac:(nia)) a b (ten_mat T)); auto; try lia.
    - apply (acts_cycle_inv n l o G _ _ _ _ (acts_block n l o G (s * m) ((s + 1) * m) (N * m) ltac:(nia) ltac:(nia)) b a (ten_mat T)); auto; try lia. }
  exists (mat_ten A N m). split.
  { unfold mp_apply_cycle, mp_apply_cycle_inv, ccycle_inv. cbn [mp_t mp_irr cy_a cy_b]. fold m N. destruct (a <=? b); rewrite EA; reflexivity. }
  split; [unfold mat_ten, tdims; cbn [t_n0 t_n1 t_n2]; rewrite D0; auto|].
  intros i s' k Hi Hs' Hk. unfold mat_ten. cbn [t_at]. rewrite V by lia. unfold ten_mat. cbn [m_at]. fold m.
  assert ((s' * m + k) / m = s') as Q1 by (symmetry; apply (Z.div_unique _ _ _ k); [lia|ring]).
  assert ((s' * m + k) mod m = k) as Q2 by (symmetry; apply (Z.mod_unique _ _ s'); [lia|ring]). rewrite Q1, Q2.
  unfold incols. destruct (Z.eqb_spec s' s) as [->|Q].
  - replace ((s * m <=? s * m + k) && (s * m + k <? (s + 1) * m)) with true by nia. rewrite (Phi_sum n l o G _ (fun q => t_at T q s k)); [reflexivity|apply is_perm_pcyc; auto|lia].
  - replace ((s * m <=? s' * m + k) && (s' * m + k <? (s + 1) * m)) with false by nia. reflexivity.
Qed.

Lemma rows_act_ok n : 1 <= n -> act_ok rows_cycle n.
Proof.
  intros Hn l T a b P N0 N1 N2 Ha Hb. unfold rows_cycle. cbn [cy_a cy_b].
  destruct (zfor_inv (fun s Q => mp_irr Q = mkirr n l /\ tdims T (mp_t Q) /\ forall i s' k, 0 <= i < t_n0 T -> 0 <= s' < t_n1 T -> 0 <= k < t_n2 T ->
       t_at (mp_t Q) i s' k = if s' <? s then rsum (io_d (mkirr n l)) (fun q => (rr n l (pcyc n a b) i q * t_at T q s' k)%R) else t_at T i s' k)
     0 (t_n1 T) (fun s Q => if a <=? b then mp_apply_cycle s 1 (mkCyc a b) Q else mp_apply_cycle_inv s 1 (ccycle_inv (mkCyc a b)) Q) (mkMpart (mkirr n l) T)) as (Q & E & I & D & V); auto.
  - split; auto. split; [apply tdims_refl|]. intros i s' k Hi Hs Hk. destruct (Z.ltb_spec s' 0); [lia|reflexivity].
  - intros s (o1, T1) Hs (E1 & D1 & V1). cbn [mp_irr mp_t] in *. subst o1. pose proof D1 as (A0 & A1 & A2).
    destruct (rows_step n l a b T1 s P Hn) as (T2 & E2 & D2 & V2); try lia. exists (mkMpart (mkirr n l) T2). split; [exact E2|]. cbn [mp_irr mp_t]. split; auto. split; [eapply tdims_trans; eauto|].
    intros i s' k Hi Hs' Hk. rewrite V2 by lia. destruct (Z.eqb_spec s' s) as [->|Q].
    + destruct (Z.ltb_spec s (s + 1)); [|lia]. apply rsum_ext. intros q Hq. rewrite V1 by lia. destruct (Z.ltb_spec s s); [lia|reflexivity].
    + rewrite V1 by lia. destruct (Z.ltb_spec s' s), (Z.ltb_spec s' (s + 1)); try lia; reflexivity.
  - exists (mp_t Q). rewrite E. split; [reflexivity|]. split; auto. intros i s k Hi Hs Hk. rewrite V by auto. destruct (Z.ltb_spec s (t_n1 T)); [reflexivity|lia].
Qed.
