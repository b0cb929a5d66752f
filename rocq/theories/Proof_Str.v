(* Printed forms: what the loops write, and that it can be read back. *)
From Coq Require Import String Ascii Decimal DecimalString DecimalZ DecimalPos ZArith Reals List Bool Lia.
From Verif Require Import Model_Base Model_Perm Model_Sn Model_Part Model_Tab Model_Type Model_Fun Model_Group Model_Comb Model_FFT Model_Str.
From Verif Require Import Proof_Base.
Import ListNotations.
Open Scope Z_scope.

(* ---- decimal forms ---- *)
Lemma to_int_good z : Z.to_int z <> Pos Nil /\ Z.to_int z <> Neg Nil.
Proof. destruct z; simpl; split; try discriminate; intros H; injection H as H; exact (Unsigned.to_uint_nonnil _ H). Qed.

Lemma dec_read z : NilZero.int_of_string (dec z) = Some (Z.to_int z).
Proof. apply NilZero.isi; apply to_int_good. Qed.

Lemma dec_inj x y : dec x = dec y -> x = y.
Proof.
  intros H. apply DecimalZ.to_int_inj. pose proof (dec_read x) as A. rewrite H, dec_read in A. congruence.
Qed.

Fixpoint allch (P : ascii -> bool) (s : string) : bool := match s with EmptyString => true | String c s => P c && allch P s end.
Definition headnot (P : ascii -> bool) (s : string) : Prop := match s with EmptyString => True | String c _ => P c = false end.

Definition digit (c : ascii) : bool :=
  let n := nat_of_ascii c in ((48 <=? n) && (n <=? 57) || (n =? 45))%nat.

Lemma uint_digits u : allch digit (NilEmpty.string_of_uint u) = true.
Proof. induction u; simpl; auto. Qed.

Lemma dec_digits z : allch digit (dec z) = true.
Proof. unfold dec, NilZero.string_of_int. destruct (Z.to_int z) as [u|u]; [|simpl]; destruct u; try reflexivity; exact (uint_digits _). Qed.

Lemma split_at P a b s t : allch P a = true -> allch P b = true -> headnot P s -> headnot P t -> (a +++ s = b +++ t) -> a = b /\ s = t.
Proof.
  revert b. induction a as [|c a IH]; intros [|d b] Ha Hb Hs Ht E; simpl in *.
  - auto.
  - subst s. simpl in Hs. apply andb_true_iff in Hb as [Hb _]. congruence.
  - subst t. simpl in Ht. apply andb_true_iff in Ha as [Ha _]. congruence.
  - injection E as Ec E. subst d. apply andb_true_iff in Ha as [_ Ha]. apply andb_true_iff in Hb as [_ Hb].
    destruct (IH b Ha Hb Hs Ht E) as [-> ->]. auto.
Qed.

Lemma dec_split x y s t : headnot digit s -> headnot digit t -> (dec x +++ s = dec y +++ t) -> x = y /\ s = t.
Proof. intros Hs Ht E. destruct (split_at digit _ _ _ _ (dec_digits x) (dec_digits y) Hs Ht E) as [A B]. split; [apply dec_inj, A|exact B]. Qed.

Lemma dec_head z : exists c s, dec z = String c s /\ digit c = true.
Proof.
  pose proof (dec_digits z) as D. destruct (dec z) as [|c s] eqn:E.
  - pose proof (dec_read z) as R. rewrite E in R. discriminate R.
  - exists c, s. split; [reflexivity|]. simpl in D. apply andb_true_iff in D. tauto.
Qed.

Lemma app_s a b c : ((a +++ b) +++ c = a +++ (b +++ c)).
Proof. induction a; simpl; congruence. Qed.
Lemma app_e a : (a +++ EmptyString = a).
Proof. induction a; simpl; congruence. Qed.
Lemma app_inv a b c : (a +++ b = a +++ c) -> b = c.
Proof. induction a; simpl; intros H; [exact H|]. injection H. exact IHa. Qed.

(* ---- loops over the cells of an array ---- *)
Lemma rd_mid {A} (a : list A) x b : rd (a ++ x :: b) (zlen a) = Ret x.
Proof. unfold rd, zlen. replace (0 <=? Z.of_nat (length a)) with true by (symmetry; apply Z.leb_le; lia). rewrite Nat2Z.id, nth_error_app2 by lia. rewrite Nat.sub_diag. reflexivity. Qed.

Lemma zlen_snoc {A} (a : list A) x : zlen (a ++ [x]) = zlen a + 1.
Proof. unfold zlen. rewrite app_length. simpl. lia. Qed.
Lemma zlen_more {A} (a : list A) x b : zlen (a ++ x :: b) = zlen a + 1 + zlen b.
Proof. unfold zlen. rewrite app_length. simpl. lia. Qed.

Lemma each_cell {A S} (g : Z -> A -> S -> outcome S) a l s :
  zfor (zlen a) (zlen (a ++ l)) (fun i s => x <- rd (a ++ l) i ;; g i x s) s =
  match l with [] => Ret s | x :: l' => s' <- g (zlen a) x s ;; zfor (zlen (a ++ [x])) (zlen ((a ++ [x]) ++ l')) (fun i s => x <- rd ((a ++ [x]) ++ l') i ;; g i x s) s' end.
Proof.
  destruct l as [|x l].
  - rewrite app_nil_r. apply zfor_nil. lia.
  - rewrite zfor_cons by (rewrite zlen_more; unfold zlen; lia). rewrite rd_mid. simpl. destruct (g (zlen a) x s); simpl; try reflexivity.
    rewrite zlen_snoc, <- app_assoc. reflexivity.
Qed.

(* text written by a loop, item by item *)
Definition texts {A} (f : A -> string) (l : list A) : string := fold_right (fun x s => f x +++ s) EmptyString l.

Lemma loop_texts {A} (f : A -> outcome string) (h : A -> string) l : (forall x, In x l -> f x = Ret (h x)) ->
  forall a s, zfor (zlen a) (zlen (a ++ l)) (fun i s => x <- rd (a ++ l) i ;; (q <- f x ;; Ret (s +++ q))) s = Ret (s +++ texts h l).
Proof.
  intros H. induction l as [|x l IH]; intros a s; rewrite (each_cell (fun _ x s => q <- f x ;; Ret (s +++ q))).
  - simpl. rewrite app_e. reflexivity.
  - rewrite H by (left; reflexivity). simpl. rewrite IH by (intros; apply H; right; assumption). rewrite app_s. reflexivity.
Qed.

Lemma loop_texts0 {A} (h : A -> string) (l : list A) s : zfor 0 (zlen l) (fun i s => x <- rd l i ;; Ret (s +++ h x)) s = Ret (s +++ texts h l).
Proof. exact (loop_texts (fun x => Ret (h x)) h l (fun x _ => eq_refl) [] s). Qed.

Lemma concat_cons sep x l : (String.concat sep (x :: l) = x +++ match l with [] => EmptyString | _ => sep +++ String.concat sep l end).
Proof. destruct l; simpl; [rewrite app_e|]; reflexivity. Qed.

(* text written by a loop that puts sep between items *)
Definition seps {A} (sep : string) (f : A -> string) (l : list A) : string := String.concat sep (map f l).

(* ---- permutations ---- *)
Lemma perm_form ind p : perm_str ind p = Ret ("[ " +++ texts (fun x => dec x +++ " ") p +++ "]")%string.
Proof. unfold perm_str. rewrite (loop_texts0 (fun x => dec x +++ " ")%string). reflexivity. Qed.

Lemma perm_concat p : ("[ " +++ texts (fun x => dec x +++ " ") p +++ "]" = String.concat " " ("[" :: map dec p ++ ["]"]))%string.
Proof.
  change ("[ " +++ texts (fun x => dec x +++ " ") p +++ "]")%string with ("[" +++ (" " +++ texts (fun x => dec x +++ " ") p +++ "]"))%string.
  rewrite concat_cons. f_equal. replace (match map dec p ++ ["]"%string] with [] => ""%string | _ => (" " +++ String.concat " " (map dec p ++ ["]"]))%string end) with (" " +++ String.concat " " (map dec p ++ ["]"]))%string by (destruct p; reflexivity).
  f_equal. induction p as [|x p IH]; [reflexivity|]. change (map dec (x :: p) ++ ["]"%string]) with (dec x :: map dec p ++ ["]"%string]). rewrite concat_cons.
  simpl texts. rewrite !app_s. f_equal. replace (match map dec p ++ ["]"%string] with [] => ""%string | _ => (" " +++ String.concat " " (map dec p ++ ["]"]))%string end) with (" " +++ String.concat " " (map dec p ++ ["]"]))%string by (destruct p; reflexivity).
  rewrite <- IH. reflexivity.
Qed.

(* items that end with a blank, then something that starts neither with a digit nor with - *)
Lemma blanks_split p q s t : headnot digit s -> headnot digit t -> (texts (fun x => dec x +++ " ") p +++ s = texts (fun x => dec x +++ " ") q +++ t)%string -> p = q /\ s = t.
Proof.
  intros Hs Ht. revert q. induction p as [|x p IH]; intros [|y q] E; simpl in E.
  - auto.
  - subst s. destruct (dec_head y) as (c & r & Ed & Dc). rewrite Ed in Hs. simpl in Hs. congruence.
  - subst t. destruct (dec_head x) as (c & r & Ed & Dc). rewrite Ed in Ht. simpl in Ht. congruence.
  - rewrite !app_s in E. apply dec_split in E; [|reflexivity|reflexivity]. destruct E as [-> E]. simpl in E. injection E as E. destruct (IH q E) as [-> ->]. auto.
Qed.

Lemma perm_back p q s t i j a b : perm_str i p = Ret a -> perm_str j q = Ret b -> (a +++ s = b +++ t) -> p = q /\ s = t.
Proof.
  rewrite !perm_form. intros A B E. apply Ret_inj in A. apply Ret_inj in B. subst a b. rewrite !app_s in E. apply app_inv in E. apply blanks_split in E; [|reflexivity|reflexivity]. destruct E as [-> E].
  apply app_inv in E. auto.
Qed.

(* ---- cycles, transpositions ---- *)
Lemma cycle_back i a b a' b' s t : (cycle_str i a b +++ s = cycle_str i a' b' +++ t) -> a = a' /\ b = b' /\ s = t.
Proof.
  unfold cycle_str. rewrite !app_s. intros E. do 2 apply app_inv in E. apply dec_split in E; [|reflexivity|reflexivity]. destruct E as [-> E]. apply app_inv in E.
  apply dec_split in E; [|reflexivity|reflexivity]. destruct E as [-> E]. apply app_inv in E. auto.
Qed.
Lemma transp_back i a b a' b' s t : (transp_str i a b +++ s = transp_str i a' b' +++ t) -> a = a' /\ b = b' /\ s = t.
Proof.
  unfold transp_str. rewrite !app_s. intros E. do 2 apply app_inv in E. apply dec_split in E; [|reflexivity|reflexivity]. destruct E as [-> E]. apply app_inv in E.
  apply dec_split in E; [|reflexivity|reflexivity]. destruct E as [-> E]. apply app_inv in E. auto.
Qed.

(* ---- partitions ---- *)
Lemma part_loop l : forall a s,
  zfor (zlen a) (zlen (a ++ l)) (fun i s => x <- rd (a ++ l) i ;; Ret (if i <? zlen (a ++ l) - 1 then ((s +++ dec x) +++ ","%string) else s +++ dec x)) s = Ret (s +++ seps "," dec l).
Proof.
  induction l as [|x l IH]; intros a s; rewrite (each_cell (fun i x s => Ret (if i <? zlen (a ++ _) - 1 then ((s +++ dec x) +++ ","%string) else s +++ dec x))).
  - unfold seps. simpl. rewrite app_e. reflexivity.
  - cbn [bind]. rewrite zlen_more. specialize (IH (a ++ [x])). rewrite <- app_assoc in IH. simpl in IH. rewrite <- app_assoc. simpl app. rewrite zlen_more in IH. rewrite IH. unfold seps. rewrite map_cons, concat_cons.
    destruct l as [|y l]; cbn [map].
    + replace (zlen a <? zlen (a ++ [x]) - 1) with false by (symmetry; apply Z.ltb_ge; rewrite zlen_snoc; lia). simpl. rewrite !app_e. reflexivity.
    + replace (zlen a <? zlen (a ++ x :: y :: l) - 1) with true by (symmetry; apply Z.ltb_lt; rewrite zlen_more; unfold zlen; simpl; lia). rewrite !app_s. reflexivity.
Qed.

Lemma part_form ind l : part_str ind l = Ret ("[" +++ String.concat "," (map dec l) +++ "]")%string.
Proof. unfold part_str. pose proof (part_loop l [] "["%string) as H. simpl app in H. change (zlen []) with 0 in H. simpl. rewrite H. unfold seps. simpl. reflexivity. Qed.

(* lists with separators *)
Definition stop (s : string) : Prop := match s with EmptyString => False | String c _ => digit c = false /\ c <> ","%char end.

Lemma commas_split p q s t : stop s -> stop t -> (String.concat "," (map dec p) +++ s = String.concat "," (map dec q) +++ t)%string -> p = q /\ s = t.
Proof.
  intros Hs Ht. revert q. induction p as [|x p IH]; intros [|y q] E.
  - auto.
  - exfalso. rewrite map_cons, concat_cons in E. simpl in E. subst s. destruct (dec_head y) as (c & r & Ed & Dc). rewrite Ed in Hs. simpl in Hs. destruct Hs. congruence.
  - exfalso. rewrite map_cons, concat_cons in E. simpl in E. subst t. destruct (dec_head x) as (c & r & Ed & Dc). rewrite Ed in Ht. simpl in Ht. destruct Ht. congruence.
  - rewrite !map_cons, !concat_cons, !app_s in E. destruct s as [|cs s]; [destruct Hs|]. destruct t as [|ct t]; [destruct Ht|]. destruct Hs as [Ds Ns], Ht as [Dt Nt].
    apply dec_split in E.
    + destruct E as [-> E]. destruct p as [|x' p]; destruct q as [|y' q]; cbn [map] in E.
      * simpl in E. auto.
      * exfalso. simpl in E. injection E as Ec _. congruence.
      * exfalso. simpl in E. injection E as Ec _. congruence.
      * rewrite !app_s in E. apply app_inv in E. destruct (IH (y' :: q) E) as [-> ->]. auto.
    + destruct p; simpl; auto.
    + destruct q; simpl; auto.
Qed.

Lemma part_back l m s t i j a b : part_str i l = Ret a -> part_str j m = Ret b -> (a +++ s = b +++ t) -> l = m /\ s = t.
Proof.
  rewrite !part_form. intros A B E. apply Ret_inj in A. apply Ret_inj in B. subst a b. rewrite !app_s in E. apply app_inv in E.
  apply commas_split in E; [|split; [reflexivity|discriminate]..]. destruct E as [-> E]. apply app_inv in E. auto.
Qed.

(* ---- vectors ---- *)
Lemma vec_empty : vec_str [] = UB.
Proof.
  unfold vec_str. change (zlen (@nil Z) - 1) with (-1). replace (-1 mod 2 ^ 64) with (2 ^ 64 - 1) by reflexivity.
  rewrite zfor_cons by reflexivity. reflexivity.
Qed.

Lemma vec_form v : 0 < zlen v < 2 ^ 31 -> vec_str v = Ret ("(" +++ String.concat "," (map dec v) +++ ")")%string.
Proof.
  intros H. unfold vec_str. rewrite Z.mod_small by (assert (2 ^ 31 < 2 ^ 64) by reflexivity; lia).
  destruct (exists_last (l := v)) as (u & x & ->); [intros ->; unfold zlen in H; simpl in H; lia|].
  rewrite zlen_snoc in *. replace (zlen u + 1 - 1) with (zlen u) by lia.
  replace (zlen u + 1 >? 0) with true by (symmetry; apply Z.gtb_lt; lia). rewrite (rd_mid u x []).
  assert (L : forall l s, zfor 0 (zlen l) (fun i s => y <- rd (l ++ [x]) i ;; Ret (s +++ (dec y +++ ","))%string) s = Ret (s +++ texts (fun y => dec y +++ ",") l)%string).
  { intros l s. rewrite <- (loop_texts0 (fun y => dec y +++ ",")%string l s). unfold zfor. apply foldM_ext. intros i z Hi. apply in_zrange in Hi.
    rewrite (rd_ok l i 0) by lia. rewrite (rd_ok (l ++ [x]) i 0) by (rewrite zlen_snoc; lia). unfold znth. rewrite app_nth1 by (unfold zlen in Hi; lia). reflexivity. }
  rewrite L. cbn [bind]. f_equal. rewrite app_s. f_equal. clear. induction u as [|y u IH]; [reflexivity|].
  simpl app. rewrite map_cons, concat_cons, !app_s. simpl texts. rewrite !app_s. f_equal. rewrite IH. destruct u; reflexivity.
Qed.

(* ---- tableaux ---- *)
Lemma tab_form ind t : tab_str ind t = Ret (texts (fun row => ind +++ texts (fun x => dec x +++ " ")%string row +++ nl) t).
Proof.
  unfold tab_str.
  transitivity (zfor 0 (zlen t) (fun i s => row <- rd t i ;; Ret (s +++ (ind +++ texts (fun x => dec x +++ " ")%string row +++ nl))) ""%string).
  - unfold zfor. apply foldM_ext. intros i s Hi. destruct (rd t i); simpl; try reflexivity. fold (@zfor string). 
    change (foldM ?b (zrange 0 (zlen a)) ?s) with (zfor 0 (zlen a) b s). rewrite (loop_texts0 (fun x => dec x +++ " ")%string). simpl. rewrite !app_s. reflexivity.
  - rewrite loop_texts0. reflexivity.
Qed.

Lemma tab_back ind t u s : tab_str ind t = Ret s -> tab_str ind u = Ret s -> t = u.
Proof.
  rewrite !tab_form. intros A B. apply Ret_inj in A. apply Ret_inj in B. subst s. revert u B. induction t as [|r t IH]; intros [|r' u] B; simpl in B.
  - reflexivity.
  - exfalso. destruct ind; simpl in B; [|discriminate]. destruct r'; simpl in B; [discriminate|]. destruct (dec_head z) as (c & q & E & _). rewrite E in B. discriminate.
  - exfalso. destruct ind; simpl in B; [|discriminate]. destruct r; simpl in B; [discriminate|]. destruct (dec_head z) as (c & q & E & _). rewrite E in B. discriminate.
  - rewrite !app_s in B. apply app_inv in B. apply blanks_split in B; [|reflexivity|reflexivity]. destruct B as [-> B]. apply app_inv in B. f_equal. apply IH, B.
Qed.
