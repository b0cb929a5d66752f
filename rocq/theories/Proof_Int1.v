(* Characters on a product of two symmetric groups inside a larger one: the multiplicities are integers. *)
From Coq Require Import ZArith List Bool Lia ZifyBool Permutation Reals Lra.
From Verif Require Import Model_Base Model_Sn Model_Perm Model_Part Model_Tab Model_Irrep.
From Verif Require Import Spec_Perm Spec_Part Spec_Tab Spec_Rep Spec_Four.
From Verif Require Import Proof_Base Proof_Perm Proof_Sn Proof_SnProps Proof_Part Proof_PartProps Proof_Tab Proof_TabProps Proof_Cycles Proof_Cox Proof_Yor Proof_Sum Proof_Irrep Proof_Rep Proof_Mat Proof_IrrepProps Proof_JM Proof_Conn Proof_Schur Proof_Restr Proof_UpDown Proof_Complete Proof_Char Proof_Kron.
Import ListNotations.
Open Scope R_scope.

(* p moves 1..a, q moves a+1..a+k *)
Definition psum (a : Z) (p q : list Z) : list Z := p ++ map (fun v => (v + a)%Z) q.

Open Scope Z_scope.
Lemma img_psum a k p q i : is_perm a p -> is_perm k q -> 1 <= i <= a + k -> img (psum a p q) i = if i <=? a then img p i else img q (i - a) + a.
Proof.
  intros P Q Hi. pose proof (is_perm_len _ _ P) as Lp. pose proof (is_perm_len _ _ Q) as Lq. unfold psum. change (img (p ++ map (fun v => v + a) q) i) with (znth (p ++ map (fun v => v + a) q) (i - 1) 0). change (img p i) with (znth p (i - 1) 0). change (img q (i - a)) with (znth q (i - a - 1) 0). rewrite znth_app by lia.
  destruct (Z.leb_spec i a); destruct (Z.ltb_spec (i - 1) (zlen p)); try lia; auto. rewrite (znth_map _ _ _ 0) by lia. replace (i - 1 - zlen p) with (i - a - 1) by lia. auto.
Qed.

Lemma is_perm_psum a k p q : is_perm a p -> is_perm k q -> is_perm (a + k) (psum a p q).
Proof.
  intros P Q. pose proof (is_perm_nonneg _ _ P). pose proof (is_perm_nonneg _ _ Q). apply is_perm_intro.
  - unfold psum. rewrite zlen_app, zlen_map, (is_perm_len _ _ P), (is_perm_len _ _ Q). auto.
  - intros i Hi. rewrite (img_psum a k) by auto. destruct (Z.leb_spec i a).
    + pose proof (is_perm_img _ _ i P). lia.
    + pose proof (is_perm_img _ _ (i - a) Q). lia.
  - intros i j Hi Hj. rewrite !(img_psum a k) by auto. destruct (Z.leb_spec i a); destruct (Z.leb_spec j a); intros E.
    + apply (img_inj a p); auto; lia.
    + pose proof (is_perm_img _ _ i P). pose proof (is_perm_img _ _ (j - a) Q). lia.
    + pose proof (is_perm_img _ _ j P). pose proof (is_perm_img _ _ (i - a) Q). lia.
    + assert (i - a = j - a); [|lia]. apply (img_inj k q); auto; lia.
Qed.

Lemma psum_mul a k p q p' q' : is_perm a p -> is_perm k q -> is_perm a p' -> is_perm k q' -> pmul (psum a p q) (psum a p' q') = psum a (pmul p p') (pmul q q').
Proof.
  intros P Q P' Q'. pose proof (is_perm_psum a k p q P Q) as S. pose proof (is_perm_psum a k p' q' P' Q') as S'. pose proof (is_perm_pmul a p p' P P') as PP. pose proof (is_perm_pmul k q q' Q Q') as QQ.
  apply (perm_ext (a + k)); [apply is_perm_len; apply is_perm_pmul; auto|apply is_perm_len; apply is_perm_psum; auto|]. intros i Hi.
  rewrite img_pmul by (rewrite (is_perm_len _ _ S'); auto). pose proof (is_perm_img _ _ i S' Hi) as B. rewrite (img_psum a k p q) by auto. rewrite (img_psum a k p' q' i) by auto. rewrite (img_psum a k (pmul p p')) by auto.
  destruct (Z.leb_spec i a).
  - pose proof (is_perm_img _ _ i P' ltac:(lia)). destruct (Z.leb_spec (img p' i) a); [|lia]. rewrite img_pmul by (rewrite (is_perm_len _ _ P'); lia). auto.
  - pose proof (is_perm_img _ _ (i - a) Q' ltac:(lia)). destruct (Z.leb_spec (img q' (i - a) + a) a); [lia|]. rewrite img_pmul by (rewrite (is_perm_len _ _ Q'); lia). f_equal. f_equal. lia.
Qed.

Lemma psum_id a k : 0 <= a -> 0 <= k -> psum a (pid a) (pid k) = pid (a + k).
Proof.
  intros Ha Hk. pose proof (is_perm_pid a Ha) as P. pose proof (is_perm_pid k Hk) as Q.
  apply (perm_ext (a + k)); [apply is_perm_len; apply is_perm_psum; auto|apply zlen_pid; lia|]. intros i Hi. rewrite (img_psum a k) by auto. rewrite (img_pid (a + k)) by lia. destruct (Z.leb_spec i a); [apply img_pid; lia|]. rewrite img_pid by lia. lia.
Qed.

Lemma psum_inv a k p q : is_perm a p -> is_perm k q -> pinv (psum a p q) = psum a (pinv p) (pinv q).
Proof.
  intros P Q. pose proof (is_perm_nonneg _ _ P). pose proof (is_perm_nonneg _ _ Q). pose proof (is_perm_pinv a p P) as P'. pose proof (is_perm_pinv k q Q) as Q'.
  symmetry. apply (pinv_unique (a + k)); [apply is_perm_psum; auto|apply is_perm_psum; auto|]. rewrite (psum_mul a k) by auto. rewrite (pmul_pinv_r a), (pmul_pinv_r k) by auto. apply psum_id; auto.
Qed.
Open Scope R_scope.

Section Two.
  Variables (a k : Z) (Ha : (1 <= a)%Z) (Hk : (1 <= k)%Z).
  Let n := (a + k)%Z.
  Let Hn : (1 <= n)%Z. Proof. unfold n. lia. Qed.
  Let La := all_perms a.
  Let Lk := all_perms k.
  Let HLa : lists_Sn a La. Proof. apply all_perms_lists. lia. Qed.
  Let HLk : lists_Sn k Lk. Proof. apply all_perms_lists. lia. Qed.

  Lemma ps_perm p q : is_perm a p -> is_perm k q -> is_perm n (psum a p q).
  Proof. apply is_perm_psum. Qed.

  (* the multiplicity of r x v in the restriction of l *)
  Definition mult2 (l r v : list Z) : R := lsum La (fun p => lsum Lk (fun q => chi n l (psum a p q) * (chi a r p * chi k v q))) / (IZR (zfact a) * IZR (zfact k)).

  Section Nat.
    Variables (l r v : list Z) (Pl : is_part n l) (Pr : is_part a r) (Pv : is_part k v).
    Let X : list (Z * (Z * Z)) := flat_map (fun i => map (pair i) (flat_map (fun j => map (pair j) (zrange 0 (dd k v))) (zrange 0 (dd a r)))) (zrange 0 (dd n l)).
    Definition tens2 (p q : list Z) (x y : Z * (Z * Z)) : R := rr n l (psum a p q) (fst x) (fst y) * (rr a r p (fst (snd x)) (fst (snd y)) * rr k v q (snd (snd x)) (snd (snd y))).

    Lemma in_X2 x : In x X <-> (0 <= fst x < dd n l)%Z /\ (0 <= fst (snd x) < dd a r)%Z /\ (0 <= snd (snd x) < dd k v)%Z.
    Proof.
      destruct x as (i & j & h). unfold X. rewrite in_flat_map. cbn [fst snd]. split.
      - intros (i' & Hi & H). apply in_map_iff in H as ((j' & k') & E & H). injection E as -> -> ->. apply in_zrange in Hi. apply in_flat_map in H as (j' & Hj & H). apply in_map_iff in H as (k' & E & H). injection E as -> ->. apply in_zrange in Hj, H. auto.
      - intros (Hi & Hj & Hh). exists i. split; [apply in_zrange; auto|]. apply in_map. apply in_flat_map. exists j. split; [apply in_zrange; auto|]. apply in_map, in_zrange; auto.
    Qed.

    Lemma lsum_prod2 (f g h : Z -> R) : lsum X (fun x => f (fst x) * (g (fst (snd x)) * h (snd (snd x)))) = rsum (dd n l) f * (rsum (dd a r) g * rsum (dd k v) h).
    Proof.
      unfold X. rewrite lsum_flat_map, !rsum_lsum. rewrite <- lsum_scal_r. apply lsum_ext. intros i _. rewrite lsum_map, lsum_flat_map. cbn [fst snd]. rewrite <- lsum_scal_r, <- lsum_scal. apply lsum_ext. intros j _. rewrite lsum_map. cbn [fst snd]. rewrite <- !lsum_scal. apply lsum_ext. intros h' _. ring.
    Qed.

    Lemma tens2_mul p q p' q' x z : is_perm a p -> is_perm k q -> is_perm a p' -> is_perm k q' -> In x X -> lsum X (fun y => tens2 p q x y * tens2 p' q' y z) = tens2 (pmul p p') (pmul q q') x z.
    Proof.
      intros Hp Hq Hp' Hq' Hx. apply in_X2 in Hx as (A & B & C). unfold tens2 at 3. rewrite <- (psum_mul a k) by auto. rewrite (rr_mul n Hn), (rr_mul a Ha), (rr_mul k Hk) by (auto using ps_perm). rewrite <- lsum_prod2. apply lsum_ext. intros y _. unfold tens2. ring.
    Qed.

    Let N := IZR (zfact a) * IZR (zfact k).
    Let P (x y : Z * (Z * Z)) : R := lsum La (fun p => lsum Lk (fun q => tens2 p q x y)) / N.

    Lemma P2_symm : symm X P.
    Proof.
      intros x y Hx Hy. unfold P. f_equal. rewrite <- (sum_inv a La HLa). apply lsum_ext. intros p Hp. apply HLa in Hp. rewrite <- (sum_inv k Lk HLk). apply lsum_ext. intros q Hq. apply HLk in Hq.
      apply in_X2 in Hx as (A & B & C). apply in_X2 in Hy as (A' & B' & C'). unfold tens2. rewrite <- (psum_inv a k) by auto. rewrite (rr_inv n Hn), (rr_inv a Ha), (rr_inv k Hk) by (auto using ps_perm). ring.
    Qed.

    Lemma P2_idem : idem X P.
    Proof.
      intros x z Hx Hz. unfold P. pose proof (fact_pos a) as Fa. pose proof (fact_pos k) as Fk.
      set (f := fun p q y => tens2 p q x y). set (g := fun p q y => tens2 p q y z).
      assert (forall y, lsum La (fun p => lsum Lk (fun q => f p q y)) * lsum La (fun p => lsum Lk (fun q => g p q y)) = lsum La (fun p => lsum Lk (fun q => lsum La (fun p' => lsum Lk (fun q' => f p q y * g p' q' y))))) as E.
      { intros y. rewrite <- lsum_scal_r. apply lsum_ext. intros p _. rewrite <- lsum_scal_r. apply lsum_ext. intros q _. rewrite <- lsum_scal. apply lsum_ext. intros p' _. rewrite <- lsum_scal. auto. }
      rewrite (lsum_ext _ _ (fun y => lsum La (fun p => lsum Lk (fun q => lsum La (fun p' => lsum Lk (fun q' => f p q y * g p' q' y)))) * (/ N * / N))).
      2:{ intros y _. rewrite <- E. unfold f, g, Rdiv. ring. }
      rewrite lsum_scal_r, lsum_swap.
      rewrite (lsum_ext La _ (fun p => lsum Lk (fun q => lsum La (fun p' => lsum Lk (fun q' => tens2 p' q' x z))))).
      2:{ intros p Hp. apply HLa in Hp. rewrite lsum_swap. apply lsum_ext. intros q Hq. apply HLk in Hq. rewrite lsum_swap.
          rewrite <- (sum_left a La HLa p (fun p' => lsum Lk (fun q' => tens2 p' q' x z))) by auto. apply lsum_ext. intros p' Hp'. apply HLa in Hp'. rewrite lsum_swap.
          rewrite <- (sum_left k Lk HLk q (fun q' => tens2 (pmul p p') q' x z)) by auto. apply lsum_ext. intros q' Hq'. apply HLk in Hq'. apply tens2_mul; auto. }
      rewrite lsum_const. rewrite lsum_const. rewrite (lists_Sn_len a La), (lists_Sn_len k Lk) by (auto; lia). unfold N. field. split; lra.
    Qed.

    Lemma P2_trace : tr X P = mult2 l r v.
    Proof.
      unfold tr, P, mult2, Rdiv. rewrite lsum_scal_r. fold N. f_equal. rewrite lsum_swap. apply lsum_ext. intros p _. rewrite lsum_swap. apply lsum_ext. intros q _. unfold tens2. rewrite (lsum_prod2 (fun i => rr n l (psum a p q) i i) (fun j => rr a r p j j) (fun h => rr k v q h h)). reflexivity.
    Qed.

    Lemma mult2_nat : exists m, mult2 l r v = INR m.
    Proof. rewrite <- P2_trace. apply idem_trace_nat; [apply P2_symm|apply P2_idem]. Qed.
  End Nat.

  (* a character of the larger group, on the product *)
  Lemma chi_psum l p q : is_part n l -> is_perm a p -> is_perm k q ->
    chi n l (psum a p q) = lsum (plist (Z.to_nat (a - 1))) (fun r => lsum (plist (Z.to_nat (k - 1))) (fun v => mult2 l r v * (chi a r p * chi k v q))).
  Proof.
    intros Pl Hp Hq. pose proof (fact_pos a) as Fa. pose proof (fact_pos k) as Fk.
    assert (forall g h p' q', is_perm a g -> is_perm k h -> is_perm a p' -> is_perm k q' -> chi n l (psum a (pmul g (pmul p' (pinv g))) (pmul h (pmul q' (pinv h)))) = chi n l (psum a p' q')) as C.
    { intros g h p' q' Hg Hh Hp' Hq'. pose proof (is_perm_pinv a g Hg). pose proof (is_perm_pinv k h Hh). rewrite <- (psum_mul a k) by (auto using is_perm_pmul). rewrite <- (psum_mul a k p' q') by auto. rewrite <- (psum_inv a k) by auto. apply (chi_class n Hn l Pl); auto using ps_perm. }
    assert (forall g p', is_perm a g -> is_perm a p' -> forall q', is_perm k q' -> chi n l (psum a (pmul g (pmul p' (pinv g))) q') = chi n l (psum a p' q')) as C1.
    { intros g p' Hg Hp' q' Hq'. pose proof (is_perm_pid k ltac:(lia)) as I. rewrite <- (C g (pid k) p' q') by auto. f_equal. f_equal. rewrite (pinv_pid k) by lia. rewrite (pmul_pid_r k), (pmul_pid_l k) by auto. auto. }
    assert (forall h q', is_perm k h -> is_perm k q' -> forall p', is_perm a p' -> chi n l (psum a p' (pmul h (pmul q' (pinv h)))) = chi n l (psum a p' q')) as C2.
    { intros h q' Hh Hq' p' Hp'. pose proof (is_perm_pid a ltac:(lia)) as I. rewrite <- (C (pid a) h p' q') by auto. f_equal. f_equal. rewrite (pinv_pid a) by lia. rewrite (pmul_pid_r a), (pmul_pid_l a) by auto. auto. }
    rewrite (class_decompose a Ha (fun p => chi n l (psum a p q)) p); [|intros g p' Hg Hp'; apply C1; auto|auto].
    apply lsum_ext. intros r Hr. change (all_perms a) with La.
    rewrite (class_decompose k Hk (fun q => lsum La (fun h => chi n l (psum a h q) * chi a r h)) q); [| |auto].
    2:{ intros h q' Hh Hq'. apply lsum_ext. intros p' Hp'. apply HLa in Hp'. rewrite C2 by auto. auto. }
    unfold Rdiv. rewrite <- !lsum_scal_r. apply lsum_ext. intros v Hv. unfold mult2, Rdiv. change (all_perms k) with Lk.
    rewrite (lsum_ext Lk (fun h => lsum La (fun h0 => chi n l (psum a h0 h) * chi a r h0) * chi k v h) (fun h => lsum La (fun h0 => chi n l (psum a h0 h) * (chi a r h0 * chi k v h)))).
    2:{ intros h _. rewrite <- lsum_scal_r. apply lsum_ext. intros h0 _. ring. }
    rewrite lsum_swap. field. split; lra.
  Qed.
End Two.
