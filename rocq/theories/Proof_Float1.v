(* Rounded arithmetic: what the loops of Model_Float compute, entry by entry. *)
From Coq Require Import ZArith List Bool Lia Reals Lra.
From Verif Require Import Model_Base Model_Perm Model_Part Model_Comb Model_Tab Model_Irrep Model_Float.
From Verif Require Import Spec_Perm Spec_Part Spec_Tab Spec_Rep.
From Verif Require Import Proof_Base Proof_Perm Proof_Part Proof_Tab Proof_TabProps Proof_Yor Proof_Irrep.
Import ListNotations.
Open Scope Z_scope.

Section F.
  Variable F : arith.
  Notation fmat := (fmat F).

  Definition fwf (d m : Z) (A : fmat) : Prop := zlen (fm_rows F A) = d /\ fm_n1 F A = m /\ forall i, 0 <= i < d -> zlen (znth (fm_rows F A) i []) = m.
  Definition fat (A : fmat) (i j : Z) : fl F := znth (znth (fm_rows F A) i []) j (fz F 0).

  Lemma fget_ok d m A i j : fwf d m A -> 0 <= i < d -> 0 <= j < m -> fget F A i j = Ret (fat A i j).
  Proof. intros (L & N & R) Hi Hj. unfold fget. rewrite (rd_ok _ _ []) by lia. cbn [bind]. apply rd_ok. rewrite R by lia. lia. Qed.

  Lemma fset_ok d m A i j x : fwf d m A -> 0 <= i < d -> 0 <= j < m -> exists A', fset F A i j x = Ret A' /\ fwf d m A' /\
    forall a b, 0 <= a < d -> 0 <= b < m -> fat A' a b = if (a =? i) && (b =? j) then x else fat A a b.
  Proof.
    intros (L & N & R) Hi Hj. unfold fset. rewrite (rd_ok _ _ []) by lia. cbn [bind]. rewrite wr_ok by (rewrite R by lia; lia). cbn [bind].
    rewrite wr_ok by lia. cbn [bind]. eexists. split; [reflexivity|]. split.
    - split; [cbn [fm_rows]; rewrite zlen_zupd by lia; auto|]. split; [auto|]. intros a Ha. cbn [fm_rows]. rewrite znth_zupd by lia.
      destruct (Z.eqb_spec a i) as [->|]; [rewrite zlen_zupd by (rewrite R by lia; lia)|]; apply R; auto.
    - intros a b Ha Hb. unfold fat. cbn [fm_rows]. rewrite znth_zupd by lia. destruct (Z.eqb_spec a i) as [->|]; [|reflexivity].
      rewrite znth_zupd by (rewrite ?R by lia; lia). cbn [andb]. destruct (Z.eqb_spec b j); reflexivity.
  Qed.

  Lemma fident_wf d : 0 <= d -> fwf d d (fident F d).
  Proof.
    intros Hd. unfold fwf, fident. cbn [fm_rows fm_n1]. split; [rewrite zlen_map, zlen_zrange; lia|]. split; [auto|]. intros i Hi.
    rewrite (znth_map _ _ _ 0) by (rewrite zlen_zrange; lia). rewrite zlen_map, zlen_zrange. lia.
  Qed.
  Lemma fident_at d i j : 0 <= i < d -> 0 <= j < d -> fat (fident F d) i j = if i =? j then fz F 1 else fz F 0.
  Proof.
    intros Hi Hj. unfold fat, fident. cbn [fm_rows]. rewrite (znth_map _ _ _ 0) by (rewrite zlen_zrange; lia).
    rewrite (znth_map _ _ _ 0) by (rewrite zlen_zrange; lia). rewrite !znth_zrange by lia. rewrite !Z.add_0_l. reflexivity.
  Qed.

  (* ---- the table ---- *)
  Definition fc1 (z : Z) : db F := if adj z then dz F z else ddiv F (dz F 1) (dz F z).
  Definition fc2 (z : Z) : db F := if adj z then dz F 0 else dsqrt F (dsub F (dz F 1) (ddiv F (dz F 1) (dz F (z * z)))).
  Definition fslot (o : irr) (tau i : Z) : Z * db F * db F :=
    let z := del tau (tb o i) in
    (if adj z then -1 else pos o (tswap tau (tau + 1) (tb o i)), fc1 z, fc2 z).

  Lemma f_yor_ok n l o : good n l o -> exists b, f_yor F o = Ret b /\ zlen b = io_d o * (n - 1) /\
    forall i tau, 0 <= i < io_d o -> 1 <= tau < n -> znth b (i * (n - 1) + tau - 1) None = Some (fslot o tau i).
  Proof.
    intros G. pose proof G as (P & Hn & En & El & Et). unfold f_yor. rewrite En. pose proof (zlen_nonneg (io_tabs o)) as Hd. fold (io_d o) in Hd.
    destruct (Z.ltb_spec (io_d o * (n - 1)) 0); [nia|].
    set (ok := fun (i tau : Z) (b : list (option (Z * db F * db F))) => zlen b = io_d o * (n - 1) /\
      forall i' tau', 0 <= i' < io_d o -> 1 <= tau' < n -> (i' < i \/ (i' = i /\ tau' < tau)) -> znth b (i' * (n - 1) + tau' - 1) None = Some (fslot o tau' i')).
    match goal with |- context [zfor 0 (io_d o) ?f ?s] => set (body := f); set (st0 := s) end.
    destruct (zfor_inv (fun i b => ok i 1 b) 0 (io_d o) body st0) as (b & E & K1 & K2).
    - lia.
    - split; [unfold st0; rewrite zlen_repeat; lia|]. intros; lia.
    - intros i b Hi K. unfold body.
      match goal with |- context [zfor 1 n ?f b] => set (body2 := f) end.
      destruct (zfor_inv (fun tau b => ok i tau b) 1 n body2 b) as (b' & E' & K1' & K2'); auto.
      + intros tau b1 Ht (L1 & V1). unfold body2. rewrite (rd_ok _ _ []) by auto. cbn [bind]. fold (tb o i).
        pose proof (tb_standard n l o i G Hi) as S.
        rewrite (transp_tb n l o (tb o i) tau) by auto. cbn [bind]. fold (adj (del tau (tb o i))).
        eexists. split; [|split].
        * unfold fslot, fc1, fc2. instantiate (1 := zupd b1 (i * (n - 1) + tau - 1) (Some (fslot o tau i))).
          unfold fslot, fc1, fc2. destruct (adj (del tau (tb o i))); apply wr_ok; nia.
        * rewrite zlen_zupd by nia; auto.
        * intros i' tau' Hi' Ht' Hlt. rewrite znth_zupd by nia. destruct (Z.eqb_spec (i' * (n - 1) + tau' - 1) (i * (n - 1) + tau - 1)) as [Q|Q].
          -- assert (i' = i) by nia. subst i'. assert (tau' = tau) by lia. subst. reflexivity.
          -- apply V1; auto. destruct (Z.eq_dec i' i); [|lia]. subst i'. assert (tau' <> tau) by (intros ->; lia). lia.
      + exists b'. split; [exact E'|]. split; auto. intros i' tau' Hi' Ht' Hlt. apply K2'; auto. lia.
    - exists b. split; [exact E|]. split; auto. intros i tau Hi Ht. apply K2; auto. lia.
  Qed.

  Definition ftable (n : Z) (o : irr) (b : list (option (Z * db F * db F))) : Prop := zlen b = io_d o * (n - 1) /\
    forall i tau, 0 <= i < io_d o -> 1 <= tau < n -> znth b (i * (n - 1) + tau - 1) None = Some (fslot o tau i).

  Lemma f_yor_get_ok n o b tau i : io_n o = n -> ftable n o b -> 0 <= i < io_d o -> 1 <= tau < n -> f_yor_get F o b tau i = Ret (fslot o tau i).
  Proof.
    intros En (L & V) Hi Ht. unfold f_yor_get. rewrite En. rewrite (rd_ok _ _ None) by nia. cbn [bind]. rewrite V by auto. reflexivity.
  Qed.

  (* ---- the loops over columns ---- *)
  Lemma fscale_loop d m A i c : fwf d m A -> 0 <= m -> 0 <= i < d ->
    exists A', zfor 0 m (fun j A => x <- fget F A i j ;; fset F A i j (f_scale F c x)) A = Ret A' /\ fwf d m A' /\
      forall a b, 0 <= a < d -> 0 <= b < m -> fat A' a b = if a =? i then f_scale F c (fat A i b) else fat A a b.
  Proof.
    intros W Hm Hi.
    destruct (zfor_inv (fun j A' => fwf d m A' /\
      forall a b, 0 <= a < d -> 0 <= b < m -> fat A' a b = if (a =? i) && (b <? j) then f_scale F c (fat A i b) else fat A a b) 0 m
      (fun j A => x <- fget F A i j ;; fset F A i j (f_scale F c x)) A) as (A' & E & W' & V); auto.
    - split; auto. intros a b Ha Hb. replace (b <? 0) with false by lia. rewrite andb_false_r. reflexivity.
    - intros j A1 Hj (W1 & V). rewrite (fget_ok d m) by auto. cbn [bind].
      destruct (fset_ok d m A1 i j (f_scale F c (fat A1 i j)) W1 Hi Hj) as (A2 & E2 & W2 & V2). exists A2. split; [exact E2|]. split; [auto|].
      intros a b Ha Hb. rewrite V2, !V by auto. rewrite Z.eqb_refl. cbn [andb]. destruct (Z.eqb_spec a i) as [->|]; [|reflexivity]. cbn [andb].
      destruct (Z.eqb_spec b j) as [->|].
      + replace (j <? j) with false by lia. replace (j <? j + 1) with true by lia. reflexivity.
      + replace (b <? j + 1) with (b <? j) by lia. reflexivity.
    - exists A'. split; [exact E|]. split; auto. intros a b Ha Hb. rewrite V by auto. replace (b <? m) with true by lia. rewrite andb_true_r. reflexivity.
  Qed.

  Lemma fpair_loop d m A i i2 c1 c2 : fwf d m A -> 0 <= m -> 0 <= i < d -> 0 <= i2 < d -> i <> i2 ->
    exists A', zfor 0 m (fun j A => t <- fget F A i j ;; x <- fget F A i2 j ;; A <- fset F A i j (f_row1 F c1 c2 t x) ;;
                            x <- fget F A i2 j ;; fset F A i2 j (f_row2 F c1 c2 t x)) A = Ret A' /\ fwf d m A' /\
      forall a b, 0 <= a < d -> 0 <= b < m -> fat A' a b = if a =? i then f_row1 F c1 c2 (fat A i b) (fat A i2 b)
                                else if a =? i2 then f_row2 F c1 c2 (fat A i b) (fat A i2 b) else fat A a b.
  Proof.
    intros W Hm Hi Hi2 Hne.
    match goal with |- context [zfor 0 m ?f A] => set (body := f) end.
    destruct (zfor_inv (fun j A' => fwf d m A' /\
      forall a b, 0 <= a < d -> 0 <= b < m -> fat A' a b = if (a =? i) && (b <? j) then f_row1 F c1 c2 (fat A i b) (fat A i2 b)
                                else if (a =? i2) && (b <? j) then f_row2 F c1 c2 (fat A i b) (fat A i2 b) else fat A a b) 0 m body A) as (A' & E & W' & V); auto.
    - split; auto. intros a b Ha Hb. replace (b <? 0) with false by lia. rewrite !andb_false_r. reflexivity.
    - intros j A1 Hj (W1 & V). unfold body. rewrite !(fget_ok d m) by auto. cbn [bind].
      destruct (fset_ok d m A1 i j (f_row1 F c1 c2 (fat A1 i j) (fat A1 i2 j)) W1 Hi Hj) as (A2 & E2 & W2 & V2). rewrite E2. cbn [bind].
      rewrite (fget_ok d m) by auto. cbn [bind].
      destruct (fset_ok d m A2 i2 j (f_row2 F c1 c2 (fat A1 i j) (fat A2 i2 j)) W2 Hi2 Hj) as (A3 & E3 & W3 & V3). exists A3. split; [exact E3|]. split; [auto|].
      assert (fat A1 i j = fat A i j) as I1 by (rewrite V by auto; replace (j <? j) with false by lia; rewrite !andb_false_r; reflexivity).
      assert (fat A1 i2 j = fat A i2 j) as I2 by (rewrite V by auto; replace (j <? j) with false by lia; rewrite !andb_false_r; reflexivity).
      assert (fat A2 i2 j = fat A i2 j) as I3 by (rewrite V2 by auto; destruct (Z.eqb_spec i2 i); [lia|]; cbn [andb]; exact I2).
      intros a b Ha Hb. rewrite V3, I3, V2, I1, I2 by auto. destruct (Z.eqb_spec b j) as [->|Nb].
      + rewrite !andb_true_r. replace (j <? j + 1) with true by lia. rewrite !andb_true_r.
        destruct (Z.eqb_spec a i2), (Z.eqb_spec a i); auto; try lia. rewrite V by auto. replace (j <? j) with false by lia. rewrite !andb_false_r. reflexivity.
      + rewrite !andb_false_r. rewrite V by auto. replace (b <? j + 1) with (b <? j) by lia. reflexivity.
    - exists A'. split; [exact E|]. split; auto. intros a b Ha Hb. rewrite V by auto. replace (b <? m) with true by lia. rewrite !andb_true_r. reflexivity.
  Qed.

  (* what the action of tau does to a column f of the matrix *)
  Definition fcol' (o : irr) (tau : Z) (f : Z -> fl F) (i : Z) : fl F :=
    let z := del tau (tb o i) in
    let i2 := ptn o tau i in
    if adj z then f_scale F (fc1 z) (f i)
    else if i <? i2 then f_row1 F (fc1 z) (fc2 z) (f i) (f i2)
    else let z2 := del tau (tb o i2) in f_row2 F (fc1 z2) (fc2 z2) (f i2) (f i).

  Lemma f_apply_ok n l o tau b A m : good n l o -> 1 <= tau < n -> ftable n o b -> 0 <= m -> fwf (io_d o) m A ->
    exists A', f_apply F o b tau A = Ret A' /\ fwf (io_d o) m A' /\
      forall i j, 0 <= i < io_d o -> 0 <= j < m -> fat A' i j = fcol' o tau (fun k => fat A k j) i.
  Proof.
    intros G Ht T Hm W. unfold f_apply. pose proof W as (L & N1 & _). rewrite L, Z.eqb_refl. cbn [assert_ bind].
    pose proof (zlen_nonneg (io_tabs o)) as Hd. fold (io_d o) in Hd.
    set (p := ptn o tau).
    assert (forall i, 0 <= i < io_d o -> 0 <= p i < io_d o) as PR by (intros; eapply ptn_range; eauto).
    assert (forall i, 0 <= i < io_d o -> p (p i) = i) as PP by (intros; eapply ptn_ptn; eauto).
    set (inv := fun (i : Z) (st : fmat * list bool) => let '(B, done) := st in fwf (io_d o) m B /\ zlen done = io_d o /\
      (forall r, 0 <= r < io_d o -> znth done r false = (p r <? r) && (p r <? i)) /\
      (forall r j, 0 <= r < io_d o -> 0 <= j < m -> fat B r j = if (r <? i) || (p r <? i) then fcol' o tau (fun k => fat A k j) r else fat A r j)).
    match goal with |- context [zfor 0 (io_d o) ?b ?s] => set (body := b); set (st0 := s) end.
    destruct (zfor_inv inv 0 (io_d o) body st0) as (st & E & K).
    - lia.
    - unfold st0, inv. split; auto. split; [rewrite zlen_repeat; lia|]. split.
      + intros r Hr. rewrite znth_repeat by lia. pose proof (PR r Hr). lia.
      + intros r j Hr Hj. pose proof (PR r Hr). destruct ((r <? 0) || (p r <? 0)) eqn:Q; auto. lia.
    - intros i (B & done) Hi (WB & Ld & Vd & VB). unfold body. rewrite (rd_ok _ _ false) by lia. cbn [bind]. rewrite Vd by auto.
      assert (forall r, 0 <= r < io_d o -> p r = i -> r = p i) as INV by (intros r Hr Q; rewrite <- Q; symmetry; auto).
      destruct (Z_lt_dec (p i) i) as [Lt|Ge].
      + replace ((p i <? i) && (p i <? i)) with true by lia. eexists. split; [reflexivity|].
        split; auto. split; auto. split.
        * intros r Hr. rewrite Vd by auto. destruct (Z.eq_dec (p r) i) as [Q|Q]; [|lia]. pose proof (INV r Hr Q). lia.
        * intros r j Hr Hj. rewrite VB by auto. replace ((r <? i + 1) || (p r <? i + 1)) with ((r <? i) || (p r <? i)); auto.
          destruct (Z.eq_dec r i) as [->|]; [lia|]. destruct (Z.eq_dec (p r) i) as [Q|Q]; [|lia]. pose proof (INV r Hr Q). lia.
      + replace ((p i <? i) && (p i <? i)) with false by lia.
        rewrite (f_yor_get_ok n) by (auto; apply G). cbn [bind]. unfold fslot.
        destruct (adj (del tau (tb o i))) eqn:AD.
        * assert (p i = i) as Pi by (unfold p, ptn; rewrite AD; auto). cbn [Z.eqb Pos.eqb].
          destruct (fscale_loop (io_d o) m B i (fc1 (del tau (tb o i)))) as (B' & EB & WB' & VB'); auto.
          assert (fm_n1 F B = m) as -> by apply WB. rewrite EB. cbn [bind].
          eexists. split; [reflexivity|]. split; [auto|]. split; [auto|]. split.
          -- intros r Hr. rewrite Vd by auto. destruct (Z.eq_dec (p r) i) as [Q|Q]; [|lia]. pose proof (INV r Hr Q). lia.
          -- intros r j Hr Hj. rewrite VB' by auto. rewrite !VB by auto. destruct (Z.eqb_spec r i) as [->|Nr].
             ++ rewrite Pi. replace ((i <? i) || (i <? i)) with false by lia. replace ((i <? i + 1) || (i <? i + 1)) with true by lia.
                unfold fcol'. rewrite AD. reflexivity.
             ++ replace ((r <? i + 1) || (p r <? i + 1)) with ((r <? i) || (p r <? i)); auto.
                destruct (Z.eq_dec (p r) i) as [Q|Q]; [|lia]. pose proof (INV r Hr Q). lia.
        * assert (pos o (tswap tau (tau + 1) (tb o i)) = p i) as -> by (unfold p, ptn; rewrite AD; reflexivity).
          assert (p i <> i) as Ni by (eapply ptn_neq; eauto). pose proof (PR i Hi) as Ri.
          destruct (Z.eqb_spec (p i) (-1)); [lia|].
          destruct (fpair_loop (io_d o) m B i (p i) (fc1 (del tau (tb o i))) (fc2 (del tau (tb o i)))) as (B' & EB & WB' & VB'); auto.
          assert (fm_n1 F B = m) as -> by apply WB. rewrite EB. cbn [bind]. rewrite wr_ok by lia. cbn [bind]. eexists. split; [reflexivity|].
          split; [auto|]. split; [rewrite zlen_zupd; lia|]. split.
          -- intros r Hr. rewrite znth_zupd by lia. destruct (Z.eqb_spec r (p i)) as [->|Nr].
             ++ rewrite PP by auto. lia.
             ++ rewrite Vd by auto. assert (p r <> i) by (intros Q; apply Nr; auto). lia.
          -- intros r j Hr Hj. rewrite VB' by auto. rewrite !VB by auto. rewrite PP by auto.
             assert (adj (del tau (tb o (p i))) = false) as AD2 by (unfold p; rewrite (del_ptn n l o tau G Ht i Hi AD), adj_opp; exact AD).
             destruct (Z.eqb_spec r i) as [->|Nr]; [|destruct (Z.eqb_spec r (p i)) as [->|Nr2]].
             ++ replace ((i <? i) || (p i <? i)) with false by lia. replace ((i <? i + 1) || (p i <? i + 1)) with true by lia.
                replace ((p i <? i) || (i <? i)) with false by lia. unfold fcol'. rewrite AD. fold p. replace (i <? p i) with true by lia. reflexivity.
             ++ rewrite PP by auto. replace ((i <? i) || (p i <? i)) with false by lia. replace ((p i <? i + 1) || (i <? i + 1)) with true by lia.
                replace ((p i <? i) || (i <? i)) with false by lia. unfold fcol'. rewrite AD2. fold p. rewrite PP by auto. replace (p i <? i) with false by lia. reflexivity.
             ++ replace ((r <? i + 1) || (p r <? i + 1)) with ((r <? i) || (p r <? i)); auto.
                assert (p r <> i) by (intros Q; apply Nr2; auto). lia.
    - fold body st0. rewrite E. cbn [bind]. destruct st as (B & done). destruct K as (WB & _ & _ & VB). cbn [fst]. exists B. split; [reflexivity|]. split; [auto|].
      intros i j Hi Hj. rewrite VB by auto. replace (i <? io_d o) with true by lia. reflexivity.
  Qed.
End F.
