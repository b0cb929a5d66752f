(* Printed forms of class functions, functions on quotients and groups; what exactly is printed. *)
From Coq Require Import String Ascii Decimal DecimalString ZArith Reals List Bool Lia.
From Verif Require Import Model_Base Model_Perm Model_Sn Model_Part Model_Tab Model_Type Model_Fun Model_Group Model_Comb Model_Irrep Model_FFT Model_Char Model_Str.
From Verif Require Import Spec_Perm Spec_Part Proof_Base Proof_Part Proof_PartProps Proof_Str Proof_Str2.
Import ListNotations.
Open Scope Z_scope.

Definition cline (fmt : R -> string) (indent : string) (lx : list Z * R) : string :=
  (indent +++ "SnCClass[" +++ String.concat "," (map dec (fst lx)) +++ "] : " +++ fmt (snd lx) +++ nl)%string.

Lemma cfun_form fmt ind f L : integer_partitions (cf_n f) = Ret L -> length L = length (cf_v f) ->
  cfun_str fmt ind f = Ret (String.concat "" (map (cline fmt ind) (combine L (cf_v f)))).
Proof.
  intros EL Hl. set (v := cf_v f) in *. rewrite <- texts_concat. unfold cfun_str. fold v.
  assert (Lc : zlen (combine L v) = zlen v) by (unfold zlen; rewrite combine_length; lia).
  transitivity (zfor 0 (zlen (combine L v)) (fun i s => ex <- rd (combine L v) i ;; Ret (s +++ cline fmt ind ex)) ""%string).
  - rewrite Lc. unfold zfor. apply foldM_ext. intros i s Hi. apply in_zrange in Hi. unfold cclass. rewrite EL. cbn [bind].
    rewrite (rd_ok L i []) by (unfold zlen in *; lia). cbn [bind]. unfold cclass_str. rewrite part_form. cbn [bind].
    rewrite (rd_ok v i 0%R) by lia. rewrite (rd_ok (combine L v) i ([], 0%R)) by lia. cbn [bind]. unfold znth. rewrite combine_nth by exact Hl.
    unfold cline. cbn [fst snd]. f_equal. rewrite !app_s. reflexivity.
  - rewrite loop_texts0. reflexivity.
Qed.

Lemma clines_back fmt ind : (forall x y, fmt x = fmt y -> x = y) -> (forall x, allch notnl (fmt x) = true) ->
  forall l l', texts (cline fmt ind) l = texts (cline fmt ind) l' -> l = l'.
Proof.
  intros Hi Hn. induction l as [|[e x] l IH]; intros [|[e' x'] l'] E; cbn [texts fold_right] in E.
  - reflexivity.
  - exfalso. unfold cline in E. cbn [fst snd] in E. destruct ind; discriminate E.
  - exfalso. unfold cline in E. cbn [fst snd] in E. destruct ind; discriminate E.
  - fold (texts (cline fmt ind) l) in E. fold (texts (cline fmt ind) l') in E. unfold cline at 1 3 in E. cbn [fst snd] in E. rewrite !app_s in E.
    do 2 apply app_inv in E. apply commas_split in E; [|split; [reflexivity|discriminate]..]. destruct E as [-> E].
    apply app_inv in E. apply (split_at notnl) in E; [|apply Hn|apply Hn|reflexivity|reflexivity]. destruct E as [Ex E]. apply app_inv in E. rewrite (Hi _ _ Ex), (IH _ E). reflexivity.
Qed.

Lemma combine_inj {A B} (a a' : list A) (b b' : list B) : length a = length b -> length a' = length b' -> combine a b = combine a' b' -> a = a' /\ b = b'.
Proof.
  revert a' b b'. induction a as [|x a IH]; intros [|x' a'] [|y b] [|y' b'] H H' E; cbn in *; try discriminate; auto.
  injection E as -> -> E. destruct (IH a' b b') as [-> ->]; auto.
Qed.

Lemma cfun_apart fmt i f g s L L' : (forall x y, fmt x = fmt y -> x = y) -> (forall x a b, fmt x <> a +++ nl +++ b) ->
  1 <= cf_n f -> integer_partitions (cf_n f) = Ret L -> length L = length (cf_v f) ->
  1 <= cf_n g -> integer_partitions (cf_n g) = Ret L' -> length L' = length (cf_v g) ->
  cfun_str fmt i f = Ret s -> cfun_str fmt i g = Ret s -> f = g.
Proof.
  intros Hi Hn Nf EL Hl Ng EL' Hl' F G. rewrite (cfun_form fmt i f L EL Hl) in F. rewrite (cfun_form fmt i g L' EL' Hl') in G.
  apply Ret_inj in F. apply Ret_inj in G. rewrite <- G, <- !texts_concat in F. apply clines_back in F; auto; [|intros x; apply notnl_all; apply Hn].
  apply combine_inj in F as [E1 E2]; auto. subst L'. destruct f as [n v], g as [m w]. cbn in *. subst w. f_equal.
  destruct (partitions_complete n Nf) as (A & EA & _ & IA & _). destruct (partitions_complete m Ng) as (B & EB & _ & IB & _).
  assert (A = L) by congruence. assert (B = L) by congruence. subst A B.
  assert (I : In [n] L). { apply IA. split; [intros x [<-|[]]; lia|]. split; [repeat constructor|cbn; lia]. }
  apply IB in I. destruct I as (_ & _ & I). cbn in I. lia.
Qed.

Definition vline (fmt : R -> string) (x : R) : string := (fmt x +++ nl)%string.
Lemma qfun_form fmt ind f : qfun_str fmt ind f = Ret (String.concat "" (map (vline fmt) (qf_v f))).
Proof.
  unfold qfun_str. rewrite <- texts_concat. transitivity (zfor 0 (zlen (qf_v f)) (fun i s => x <- rd (qf_v f) i ;; Ret (s +++ vline fmt x)) ""%string); [reflexivity|].
  rewrite loop_texts0. reflexivity.
Qed.
Lemma vlines_back fmt : (forall x y, fmt x = fmt y -> x = y) -> (forall x, allch notnl (fmt x) = true) ->
  forall l l', texts (vline fmt) l = texts (vline fmt) l' -> l = l'.
Proof.
  intros Hi Hn. induction l as [|x l IH]; intros [|x' l'] E; cbn [texts fold_right] in E.
  - reflexivity.
  - exfalso. unfold vline in E. destruct (fmt x'); discriminate E.
  - exfalso. unfold vline in E. destruct (fmt x); discriminate E.
  - fold (texts (vline fmt) l) in E. fold (texts (vline fmt) l') in E. unfold vline at 1 3 in E. rewrite !app_s in E.
    apply (split_at notnl) in E; [|apply Hn|apply Hn|reflexivity|reflexivity]. destruct E as [Ex E]. apply app_inv in E. rewrite (Hi _ _ Ex), (IH _ E). reflexivity.
Qed.
Lemma qfun_apart fmt i j f g s : (forall x y, fmt x = fmt y -> x = y) -> (forall x a b, fmt x <> a +++ nl +++ b) ->
  qfun_str fmt i f = Ret s -> qfun_str fmt j g = Ret s -> qf_v f = qf_v g.
Proof.
  intros Hi Hn F G. rewrite qfun_form in F, G. apply Ret_inj in F. apply Ret_inj in G. rewrite <- G, <- !texts_concat in F.
  apply vlines_back in F; auto. intros x; apply notnl_all; apply Hn.
Qed.

(* the order of the group and the size of the subgroup are not printed *)
Lemma qfun_alike fmt i n m n' m' v : qfun_str fmt i (mkQfun n m v) = qfun_str fmt i (mkQfun n' m' v).
Proof. rewrite !qfun_form. reflexivity. Qed.

Lemma groups_back : (forall i j a b, sn_str i a = sn_str j b -> a = b) /\ (forall a b, cyclic_str a = cyclic_str b -> a = b) /\ (forall a b, dihedral_str a = dihedral_str b -> a = b) /\
  (forall i a b c, sn_str i a <> cyclic_str b /\ sn_str i a <> dihedral_str c /\ cyclic_str b <> dihedral_str c).
Proof.
  split; [|split; [|split]].
  - intros i j a b E. apply app_inv in E. apply dec_split in E; [tauto|reflexivity|reflexivity].
  - intros a b E. apply app_inv in E. apply dec_split in E; [tauto|reflexivity|reflexivity].
  - intros a b E. apply app_inv in E. apply dec_split in E; [tauto|reflexivity|reflexivity].
  - intros. split; [|split]; discriminate.
Qed.

Lemma names_form i l r n : syt_str i l = Ret (i +++ "StandardYoungTableaux[" +++ String.concat "," (map dec l) +++ "]")%string /\
  cclass_str i l = Ret (i +++ "SnCClass[" +++ String.concat "," (map dec l) +++ "]")%string /\
  irrep_str i l = Ret ("SnIrrep([" +++ String.concat "," (map dec l) +++ "])")%string /\
  rep_str i r = Ret ("SnRepresentationObj(" +++ String.concat "," (map (fun p => "[" +++ String.concat "," (map dec (is_lambda (snd p))) +++ "]:" +++ dec (is_m (snd p)))%string r) +++ ")" +++ nl)%string /\
  sn_str i n = ("Sn(" +++ dec n +++ ")")%string.
Proof.
  unfold syt_str, cclass_str, irrep_str. rewrite !part_form, rep_form. cbn [bind].
  split; [reflexivity|]. split; [reflexivity|]. split; [rewrite !app_s; reflexivity|]. split; [|reflexivity].
  rewrite (map_ext _ _ (fun p => mtext_eq (is_lambda (snd p), is_m (snd p))) r). reflexivity.
Qed.
