(* Restriction to S(n-1) (C39). *)
From Coq Require Import ZArith List Bool Lia ZifyBool ZifyNat Reals Lra Permutation.
From Verif Require Import Model_Base Model_Perm Model_Sn Model_Part Model_Comb Model_Tab Model_Irrep.
From Verif Require Import Spec_Perm Spec_Part Spec_Tab Spec_Rep Spec_Four.
From Verif Require Import Proof_Base Proof_Perm Proof_Sn Proof_Part Proof_PartProps Proof_Tab Proof_TabProps Proof_Cycles Proof_Cox Proof_Yor Proof_Sum
  Proof_Irrep Proof_Rep Proof_Mat Proof_IrrepProps Proof_JM Proof_Conn Proof_Schur.
Import ListNotations.
Open Scope Z_scope.

Lemma offset_0 ds : offset ds 0 = 0.
Proof. reflexivity. Qed.
Lemma offset_S x ds c : offset (x :: ds) (S c) = x + offset ds c.
Proof. reflexivity. Qed.

Lemma offset_next ds c : (c < length ds)%nat -> offset ds (S c) = offset ds c + nth c ds 0.
Proof.
  revert c; induction ds as [|x ds IH]; intros c H; cbn [length] in H; [lia|]. destruct c as [|c].
  - rewrite offset_S, !offset_0. cbn [nth]. lia.
  - rewrite (offset_S x ds (S c)), (offset_S x ds c), IH by lia. cbn [nth]. lia.
Qed.

Lemma offset_nonneg ds c : (forall x, In x ds -> 0 <= x) -> 0 <= offset ds c.
Proof.
  revert c; induction ds as [|x ds IH]; intros c H; destruct c as [|c]; try (unfold offset; cbn; lia). rewrite offset_S.
  specialize (IH c ltac:(intros; apply H; right; auto)). pose proof (H x (or_introl eq_refl)). lia.
Qed.

Lemma offset_mono ds c c' : (forall x, In x ds -> 0 <= x) -> (c <= c')%nat -> offset ds c <= offset ds c'.
Proof.
  intros H. revert c c'; induction ds as [|x ds IH]; intros c c' L; [destruct c, c'; unfold offset; cbn; lia|].
  assert (forall x, In x ds -> 0 <= x) as H' by (intros; apply H; right; auto).
  destruct c as [|c]; [rewrite offset_0; apply offset_nonneg; auto|]. destruct c' as [|c']; [lia|]. rewrite !offset_S. specialize (IH H' c c'). lia.
Qed.

Lemma offset_inj ds c c' a b : (forall x, In x ds -> 0 <= x) -> (c < length ds)%nat -> (c' < length ds)%nat -> 0 <= a < nth c ds 0 -> 0 <= b < nth c' ds 0 ->
  offset ds c + a = offset ds c' + b -> c = c' /\ a = b.
Proof.
  intros H Hc Hc' Ha Hb E. assert (c = c') as <-; [|lia]. destruct (Nat.lt_trichotomy c c') as [K|[K|K]]; auto; exfalso.
  - pose proof (offset_mono ds (S c) c' H K). rewrite offset_next in H0 by auto. lia.
  - pose proof (offset_mono ds (S c') c H K). rewrite offset_next in H0 by auto. lia.
Qed.

Lemma offset_bound ds c a : (forall x, In x ds -> 0 <= x) -> (c < length ds)%nat -> 0 <= a < nth c ds 0 -> 0 <= offset ds c + a < zsum ds.
Proof.
  intros H Hc Ha. pose proof (offset_nonneg ds c H). split; [lia|]. pose proof (offset_mono ds (S c) (length ds) H Hc) as M.
  rewrite offset_next in M by auto. assert (offset ds (length ds) = zsum ds) as E by (unfold offset, zsum; rewrite firstn_all; reflexivity). lia.
Qed.

(* every index lies in a block *)
Lemma offset_find ds i : (forall x, In x ds -> 0 <= x) -> 0 <= i < zsum ds -> exists c a, (c < length ds)%nat /\ 0 <= a < nth c ds 0 /\ i = offset ds c + a.
Proof.
  revert i; induction ds as [|x ds IH]; intros i H Hi; [cbn in Hi; lia|]. rewrite zsum_cons in Hi. destruct (Z_lt_dec i x).
  - exists 0%nat, i. cbn [length nth]. rewrite offset_0. lia.
  - destruct (IH (i - x)) as (c & a & A & B & C); [intros; apply H; right; auto|lia|]. exists (S c), a. cbn [length nth]. rewrite offset_S. lia.
Qed.

Lemma znth_concat {A} (ls : list (list A)) c a d : (c < length ls)%nat -> 0 <= a < zlen (nth c ls []) ->
  znth (concat ls) (offset (map zlen ls) c + a) d = znth (nth c ls []) a d.
Proof.
  assert (forall (ls : list (list A)) c, 0 <= offset (map zlen ls) c) as On.
  { intros. apply offset_nonneg. intros x Hx. apply in_map_iff in Hx as (y & <- & _). apply zlen_nonneg. }
  revert c; induction ls as [|l ls IH]; intros c H Ha; cbn [length] in H; [lia|]. cbn [concat map].
  pose proof (zlen_nonneg l). destruct c as [|c].
  - cbn [nth] in *. rewrite offset_0, znth_app by lia. destruct (Z.ltb_spec (0 + a) (zlen l)); [reflexivity|lia].
  - cbn [nth] in *. rewrite offset_S. specialize (On ls c). rewrite znth_app by lia.
    destruct (Z.ltb_spec (zlen l + offset (map zlen ls) c + a) (zlen l)); [lia|].
    replace (zlen l + offset (map zlen ls) c + a - zlen l) with (offset (map zlen ls) c + a) by lia. apply IH; auto. lia.
Qed.

Lemma zlen_concat_sum {A} (ls : list (list A)) : zlen (concat ls) = zsum (map zlen ls).
Proof. induction ls as [|l ls IH]; [reflexivity|]. cbn [concat map]. rewrite zlen_app, zsum_cons, IH. reflexivity. Qed.

Lemma aw_eqS n l w f g : is_part n l -> (forall j, In j w -> 1 <= j < n) -> eqS l f g -> eqS l (aw TT w f) (aw TT w g).
Proof.
  intros P. revert f g; induction w as [|j w IH]; intros f g H E; [exact E|]. rewrite !aw_cons. apply IH; [intros; apply H; right; auto|].
  apply (TT_eqS n l); auto. apply H. left; auto.
Qed.

(* adding the largest entry commutes with the generators of the subgroup *)
Lemma TT_yadd n l r f u i : is_part n l -> In r (corners l) -> standard (prem l r) u -> 1 <= i < n - 1 ->
  TT i f (yadd u r n) = TT i (fun u => f (yadd u r n)) u.
Proof.
  intros P Hr S Hi. unfold TT.
  assert (del i (yadd u r n) = del i u) as E.
  { unfold del. rewrite !(cont_yadd n l) by (auto; lia). destruct (Z.eqb_spec (i + 1) n), (Z.eqb_spec i n); lia. }
  rewrite E. f_equal. f_equal. rewrite tswap_yadd by (exact (corner_len n l r u P Hr S)). rewrite swp_3 by lia. reflexivity.
Qed.

Lemma aw_yadd n l r w : is_part n l -> In r (corners l) -> (forall j, In j w -> 1 <= j < n - 1) -> forall f,
  eqS (prem l r) (fun u => aw TT w f (yadd u r n)) (aw TT w (fun u => f (yadd u r n))).
Proof.
  intros P Hr. induction w as [|j w IH]; intros H f; [apply eqS_refl|]. rewrite aw_cons.
  assert (forall j, In j w -> 1 <= j < n - 1) as H' by (intros; apply H; right; auto).
  eapply eqS_trans; [exact (IH H' (TT j f))|]. rewrite aw_cons. apply (aw_eqS (n - 1)); auto; [eapply corner_part; eauto|].
  intros u Su. apply (TT_yadd n l); auto. apply H. left; auto.
Qed.

(* sigma in S(n-1), seen as an element of S(n) that fixes n *)
Lemma is_perm_snoc m p : is_perm m p -> is_perm (m + 1) (p ++ [m + 1]).
Proof.
  intros P. apply (is_perm_Permutation (m + 1) (m + 1 :: p)); [apply Permutation_cons_append|]. apply is_perm_cons. auto.
Qed.

Lemma pw_embed m p : is_perm m p -> pw (m + 1) (pword (Z.to_nat m) p) = p ++ [m + 1].
Proof.
  intros P. pose proof (is_perm_nonneg _ _ P). assert (Z.of_nat (Z.to_nat m) = m) as E by lia.
  assert (is_perm (m + 1) (pw (m + 1) (pword (Z.to_nat m) p))) as Q.
  { apply is_perm_pw; [lia|]. intros j Hj. apply pword_in in Hj; auto. lia. }
  apply (perm_ext (m + 1)).
  - apply is_perm_len; auto.
  - apply is_perm_len, is_perm_snoc; auto.
  - intros i Hi. unfold pw. rewrite pword_value by (rewrite ?E; auto; try lia; apply is_perm_pid; lia).
    rewrite img_pid by lia. rewrite E. pose proof (is_perm_len _ _ P) as Lp. unfold img. destruct (Z.leb_spec i m).
    + rewrite app_nth1 by (unfold zlen in *; lia). reflexivity.
    + rewrite app_nth2 by (unfold zlen in *; lia). replace (Z.to_nat (i - 1) - length p)%nat with 0%nat by (unfold zlen in *; lia). cbn. lia.
Qed.

Lemma Phi_embed n l r p f u : is_part n l -> 2 <= n -> In r (corners l) -> is_perm (n - 1) p -> standard (prem l r) u ->
  Phi n (p ++ [n]) f (yadd u r n) = Phi (n - 1) p (fun u => f (yadd u r n)) u.
Proof.
  intros P Hn Hr Pp Su. pose proof (pw_embed (n - 1) p Pp) as E. replace (n - 1 + 1) with n in E by lia. rewrite <- E. unfold pw.
  rewrite <- (word_Phi n l _ f P ltac:(lia)); [|intros j Hj; apply pword_in in Hj; auto; lia|apply (corner_standard n l r); auto].
  unfold Phi. apply (aw_yadd n l r); auto. intros j Hj. apply pword_in in Hj; auto.
Qed.

Definition mkirr (n : Z) (mu : list Z) : irr := mkIrrep n mu (map tw (paths (Z.to_nat n) mu)).

Lemma mkirr_ok n mu : is_part n mu -> 1 <= n -> irr_new mu = Ret (mkirr n mu) /\ good n mu (mkirr n mu).
Proof.
  intros P Hn. destruct (irr_new_ok n mu P Hn) as (o & E & G). assert (good n mu (mkirr n mu)) as G' by (split; [auto|]; repeat split; auto).
  split; auto. rewrite E. f_equal. eapply good_fun; eauto.
Qed.

Section Restr.
  Variables (n : Z) (l : list Z) (o : irr).
  Hypothesis Hn : 2 <= n.
  Hypothesis G : good n l o.

  Definition subirr (c : nat) : irr := mkirr (n - 1) (prem l (nth c (corners l) 0)).
  Definition ds : list Z := map (fun r => io_d (mkirr (n - 1) (prem l r))) (corners l).

  Lemma len_ds : length ds = length (corners l).
  Proof. unfold ds. apply map_length. Qed.

  Lemma nth_ds c : (c < length (corners l))%nat -> nth c ds 0 = io_d (subirr c).
  Proof. intros H. unfold ds. rewrite (nth_indep _ 0 (io_d (mkirr (n - 1) (prem l 0)))) by (rewrite map_length; auto). rewrite (map_nth (fun r => io_d (mkirr (n - 1) (prem l r)))). reflexivity. Qed.

  Lemma ds_nonneg x : In x ds -> 0 <= x.
  Proof. intros H. apply in_map_iff in H as (r & <- & _). apply io_d_nonneg. Qed.

  Lemma tabs_blocks : io_tabs o = concat (map (fun r => map (fun u => yadd u r n) (io_tabs (mkirr (n - 1) (prem l r)))) (corners l)).
  Proof.
    destruct G as (P & _ & _ & _ & E). rewrite E. replace (Z.to_nat n) with (S (Z.to_nat (n - 1))) by lia. cbn [paths].
    rewrite flat_map_concat_map, concat_map, map_map. f_equal. apply map_ext_in. intros r Hr. unfold mkirr. cbn [io_tabs]. rewrite !map_map.
    apply map_ext_in. intros w Hw. cbn [tw]. f_equal. apply paths_len in Hw. unfold zlen. lia.
  Qed.

  Lemma ds_blocks : map zlen (map (fun r => map (fun u => yadd u r n) (io_tabs (mkirr (n - 1) (prem l r)))) (corners l)) = ds.
  Proof. unfold ds. rewrite map_map. apply map_ext. intros r. rewrite zlen_map. reflexivity. Qed.

  Lemma d_blocks : io_d o = zsum ds.
  Proof. unfold io_d. rewrite tabs_blocks, zlen_concat_sum, ds_blocks. reflexivity. Qed.

  Lemma corner_nth c : (c < length (corners l))%nat -> In (nth c (corners l) 0) (corners l).
  Proof. intros H. apply nth_In; auto. Qed.

  Lemma sub_good c : (c < length (corners l))%nat -> good (n - 1) (prem l (nth c (corners l) 0)) (subirr c).
  Proof. intros H. destruct G as (P & _). apply mkirr_ok; [|lia]. eapply corner_part; eauto. apply corner_nth; auto. Qed.

  Lemma tb_block c a : (c < length (corners l))%nat -> 0 <= a < io_d (subirr c) -> tb o (offset ds c + a) = yadd (tb (subirr c) a) (nth c (corners l) 0) n.
  Proof.
    intros Hc Ha. unfold tb at 1. rewrite tabs_blocks, <- ds_blocks.
    set (F := fun r => map (fun u => yadd u r n) (io_tabs (mkirr (n - 1) (prem l r)))).
    assert (nth c (map F (corners l)) [] = F (nth c (corners l) 0)) as E.
    { rewrite (nth_indep _ [] (F 0)) by (rewrite map_length; auto). apply map_nth. }
    rewrite znth_concat; rewrite ?map_length; auto; rewrite E; unfold F.
    - rewrite (znth_map _ _ _ []) by auto. reflexivity.
    - rewrite zlen_map. exact Ha.
  Qed.

  Lemma offset_ds_bound c a : (c < length (corners l))%nat -> 0 <= a < io_d (subirr c) -> 0 <= offset ds c + a < io_d o.
  Proof. intros Hc Ha. rewrite d_blocks. apply offset_bound; [apply ds_nonneg|rewrite len_ds; auto|rewrite nth_ds by auto; auto]. Qed.

  Lemma pos_block c u : (c < length (corners l))%nat -> standard (prem l (nth c (corners l) 0)) u ->
    pos o (yadd u (nth c (corners l) 0) n) = offset ds c + pos (subirr c) u.
  Proof.
    intros Hc Su. destruct (pos_standard _ _ _ u (sub_good c Hc) Su) as (B & E). rewrite <- E at 1. rewrite <- tb_block by auto.
    apply (pos_tb n l o); auto. apply offset_ds_bound; auto.
  Qed.

  Lemma rho_block p c c' a b : is_perm (n - 1) p -> (c < length (corners l))%nat -> (c' < length (corners l))%nat -> 0 <= a < io_d (subirr c) -> 0 <= b < io_d (subirr c') ->
    rho n o (p ++ [n]) (offset ds c + a) (offset ds c' + b) = if Nat.eq_dec c c' then rho (n - 1) (subirr c) p a b else 0%R.
  Proof.
    intros Pp Hc Hc' Ha Hb. destruct G as (P & _). unfold rho at 1. rewrite tb_block by auto.
    pose proof (sub_good c Hc) as Gc. pose proof (tb_standard _ _ _ a Gc Ha) as Sa.
    rewrite (Phi_embed n l) by (auto; apply corner_nth; auto).
    assert (forall u, standard (prem l (nth c (corners l) 0)) u -> fcol o (fun k => delta k (offset ds c' + b)) (yadd u (nth c (corners l) 0) n) =
       if Nat.eq_dec c c' then fcol (subirr c) (fun k => delta k b) u else 0%R) as E.
    { intros u Su. unfold fcol. rewrite pos_block by auto. destruct (pos_standard _ _ _ u Gc Su) as (B & _). unfold delta.
      destruct (Z.eq_dec (offset ds c + pos (subirr c) u) (offset ds c' + b)) as [Q|Q].
      - destruct (offset_inj ds c c' (pos (subirr c) u) b) as (<- & <-); auto; try apply ds_nonneg; try (rewrite len_ds; auto); try (rewrite nth_ds by auto; auto).
        destruct (Nat.eq_dec c c); [|contradiction]. destruct (Z.eq_dec (pos (subirr c) u) (pos (subirr c) u)); [auto|contradiction].
      - destruct (Nat.eq_dec c c') as [<-|]; [|auto]. destruct (Z.eq_dec (pos (subirr c) u) b); [subst; contradiction|auto]. }
    destruct (Nat.eq_dec c c') as [<-|Ne].
    - unfold rho. exact (Phi_eqS (n - 1) _ p _ _ (proj1 Gc) Pp E _ Sa).
    - rewrite (Phi_eqS (n - 1) (prem l (nth c (corners l) 0)) p _ (fun _ => 0%R) (proj1 Gc) Pp E _ Sa). unfold Phi. rewrite (aw_TT_ext _ _ (fun t => lsum (@nil Z) (fun k => (0 * 0)%R))) by reflexivity.
      rewrite (@aw_TT_lin Z [] (fun _ => 0%R) _ (fun _ _ => 0%R)). reflexivity.
  Qed.
End Restr.

Lemma restriction n l o p : is_part n l -> 2 <= n -> irr_new l = Ret o -> is_perm (n - 1) p ->
  exists mus os M Bs, ip_foreach_sub l = Ret mus /\ Forall2 (fun mu o' => irr_new mu = Ret o') mus os /\
    is_perm n (p ++ [n]) /\ irr_matrix o (p ++ [n]) = Ret M /\ Forall2 (fun o' B => irr_matrix o' p = Ret B) os Bs /\
    fold_right Z.add 0 (map io_d os) = io_d o /\
    block_diagonal (map io_d os) (fun c => m_at (nth c Bs M)) (m_at M).
Proof.
  intros P Hn E Pp. pose proof (irr_new_good n l o P ltac:(lia) E) as G.
  assert (is_perm n (p ++ [n])) as Pn by (replace n with (n - 1 + 1) by lia; apply is_perm_snoc; auto).
  destruct (matrix_ok n l o G _ Pn) as (M & EM & M0 & M1 & V).
  set (os := map (fun r => mkirr (n - 1) (prem l r)) (corners l)).
  set (B := fun r => match irr_matrix (mkirr (n - 1) (prem l r)) p with Ret B => B | _ => M end).
  assert (forall r, In r (corners l) -> is_part (n - 1) (prem l r)) as Pr by (intros r Hr; eapply corner_part; eauto).
  assert (forall r, In r (corners l) -> irr_matrix (mkirr (n - 1) (prem l r)) p = Ret (B r) /\
     agree (io_d (mkirr (n - 1) (prem l r))) (io_d (mkirr (n - 1) (prem l r))) (m_at (B r)) (rho (n - 1) (mkirr (n - 1) (prem l r)) p)) as HB.
  { intros r Hr. destruct (mkirr_ok (n - 1) _ (Pr r Hr) ltac:(lia)) as (_ & Gr). destruct (matrix_ok _ _ _ Gr p Pp) as (Br & EB & _ & _ & VB).
    unfold B. rewrite EB. auto. }
  exists (map (prem l) (corners l)), os, M, (map B (corners l)).
  assert (map io_d os = ds n l) as Ed by (unfold os, ds; rewrite map_map; reflexivity).
  split; [apply (ip_foreach_sub_ok n); auto; lia|]. split; [|split; [auto|split; [auto|split; [|split]]]].
  - unfold os. clear - Pr Hn. induction (corners l) as [|r cs IH]; cbn [map]; constructor.
    + apply mkirr_ok; [apply Pr; left; auto|lia].
    + apply IH. intros; apply Pr; right; auto.
  - unfold os. clear - HB. induction (corners l) as [|r cs IH]; cbn [map]; constructor.
    + apply HB. left; auto.
    + apply IH. intros; apply HB; right; auto.
  - rewrite Ed. change (fold_right Z.add 0 (ds n l)) with (zsum (ds n l)). symmetry. apply d_blocks; auto.
  - rewrite Ed. intros c c' a b Hc Hc' Ha Hb. rewrite len_ds in Hc, Hc'. rewrite nth_ds in Ha, Hb by auto.
    pose proof (offset_ds_bound n l o Hn G c a Hc Ha) as Ia. pose proof (offset_ds_bound n l o Hn G c' b Hc' Hb) as Ib.
    rewrite V by auto. rewrite (rho_block n l o Hn G) by auto. destruct (Nat.eq_dec c c') as [<-|]; [|reflexivity].
    assert (nth c (map B (corners l)) M = B (nth c (corners l) 0)) as EB.
    { rewrite (nth_indep _ M (B 0)) by (rewrite map_length; auto). apply map_nth. }
    rewrite EB. symmetry. apply HB; auto. apply nth_In; auto.
Qed.

Lemma fixes_last n s : 1 <= n -> is_perm n s -> img s n = n -> s = removelast s ++ [n] /\ is_perm (n - 1) (removelast s).
Proof.
  intros Hn P E. pose proof (is_perm_len _ _ P) as L.
  assert (s = removelast s ++ [n]) as Q.
  { pose proof (removelast_last_z s 0 ltac:(lia)) as R. rewrite L in R. unfold img in E. unfold znth in R. rewrite E in R. auto. }
  split; auto. rewrite Q in P. apply is_perm_cons. replace (n - 1 + 1) with n by lia.
  apply (is_perm_Permutation n (removelast s ++ [n])); auto. symmetry. apply Permutation_cons_append.
Qed.

Lemma restriction_fix n l o s : is_part n l -> 2 <= n -> irr_new l = Ret o -> is_perm n s -> img s n = n ->
  exists mus os M Bs, ip_foreach_sub l = Ret mus /\ Forall2 (fun mu o' => irr_new mu = Ret o') mus os /\
    irr_matrix o s = Ret M /\ is_perm (n - 1) (removelast s) /\ Forall2 (fun o' B => irr_matrix o' (removelast s) = Ret B) os Bs /\
    fold_right Z.add 0 (map io_d os) = io_d o /\
    block_diagonal (map io_d os) (fun c => m_at (nth c Bs M)) (m_at M).
Proof.
  intros P Hn E Ps F. destruct (fixes_last n s ltac:(lia) Ps F) as (Q & Pp).
  destruct (restriction n l o _ P Hn E Pp) as (mus & os & M & Bs & A1 & A2 & A3 & A4 & A5 & A6 & A7). rewrite <- Q in A4. exists mus, os, M, Bs. auto 10.
Qed.
