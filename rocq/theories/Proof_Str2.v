(* Printed forms of types, representations, functions and group elements. *)
From Coq Require Import String Ascii Decimal DecimalString DecimalZ DecimalPos ZArith Reals List Bool Lia.
From Verif Require Import Model_Base Model_Perm Model_Sn Model_Part Model_Tab Model_Type Model_Fun Model_Group Model_Comb Model_Irrep Model_FFT Model_Str.
From Verif Require Import Spec_Perm.
From Verif Require Import Proof_Base Proof_Perm Proof_SnProps Proof_FFTprops2 Proof_FFTquo Proof_Str.
Import ListNotations.
Open Scope Z_scope.

Lemma item_loop {A} (f : A -> outcome string) (h : A -> string) N l : (forall x, In x l -> f x = Ret (h x)) -> forall k s, k + zlen l = N ->
  foldM (fun p st => let '(i, s) := st in q <- f p ;; Ret (i + 1, if i + 1 <? N then (s +++ q) +++ ","%string else s +++ q)) l (k, s) = Ret (N, s +++ String.concat "," (map h l)).
Proof.
  intros H. induction l as [|x l IH]; intros k s E.
  - unfold zlen in E. simpl in E. simpl. rewrite app_e. f_equal. f_equal. lia.
  - cbn [foldM]. rewrite H by (left; reflexivity). cbn [bind]. rewrite IH; [|intros; apply H; right; assumption|unfold zlen in *; simpl in E; lia].
    rewrite map_cons, concat_cons. destruct l as [|y l].
    + replace (k + 1 <? N) with false by (symmetry; apply Z.ltb_ge; unfold zlen in E; simpl in E; lia). simpl. rewrite !app_e. reflexivity.
    + replace (k + 1 <? N) with true by (symmetry; apply Z.ltb_lt; unfold zlen in E; simpl in E; lia). cbn [map]. rewrite !app_s. reflexivity.
Qed.

Definition ptext (l : list Z) : string := ("[" +++ String.concat "," (map dec l) +++ "]")%string.
Definition mtext (p : list Z * Z) : string := (ptext (fst p) +++ ":" +++ dec (snd p))%string.

Lemma type_form ind t : type_str ind t = Ret ("(" +++ String.concat "," (map mtext t) +++ ")")%string.
Proof.
  unfold type_str.
  rewrite (foldM_ext _ (fun p st => let '(i, s) := st in q <- (r <- part_str "" (fst p) ;; Ret (r +++ ":" +++ dec (snd p))%string) ;; Ret (i + 1, if i + 1 <? zlen t then (s +++ q) +++ ","%string else s +++ q))).
  - rewrite (item_loop _ mtext) by (try reflexivity; intros x _; rewrite part_form; reflexivity). cbn [bind snd]. rewrite app_s. reflexivity.
  - intros [l m] [i s] _. cbn [fst snd]. rewrite part_form. cbn [bind]. reflexivity.
Qed.

Lemma rep_form ind r : rep_str ind r = Ret ("SnRepresentationObj(" +++ String.concat "," (map (fun p => mtext (is_lambda (snd p), is_m (snd p))) r) +++ ")" +++ nl)%string.
Proof.
  unfold rep_str. rewrite (item_loop _ (fun p => mtext (is_lambda (snd p), is_m (snd p)))) by (try reflexivity; intros x _; unfold iso_str; rewrite part_form; reflexivity). cbn [bind snd]. rewrite app_s. reflexivity.
Qed.

Lemma sep_back {A} (h : A -> string) (z : ascii) : z <> ","%char -> digit z = false ->
  (forall x y s t, headnot digit s -> headnot digit t -> (h x +++ s = h y +++ t) -> x = y /\ s = t) -> (forall x, exists c r, h x = String c r /\ c <> z) ->
  forall p q s t, (String.concat "," (map h p) +++ String z s = String.concat "," (map h q) +++ String z t) -> p = q /\ s = t.
Proof.
  intros Hz Dz Hb Hh p. induction p as [|x p IH]; intros [|y q] s t E.
  - simpl in E. injection E as E. auto.
  - exfalso. rewrite map_cons, concat_cons, app_s in E. destruct (Hh y) as (c & r & Eh & Nc). rewrite Eh in E. simpl in E. injection E as Ec _. congruence.
  - exfalso. rewrite map_cons, concat_cons, app_s in E. destruct (Hh x) as (c & r & Eh & Nc). rewrite Eh in E. simpl in E. injection E as Ec _. congruence.
  - rewrite !map_cons, !concat_cons, !app_s in E. apply Hb in E; [|destruct p; simpl; [exact Dz|reflexivity]|destruct q; simpl; [exact Dz|reflexivity]].
    destruct E as [-> E]. destruct p as [|x' p]; destruct q as [|y' q]; cbn [map] in E.
    + simpl in E. injection E as E. auto.
    + exfalso. simpl in E. injection E as Ec _. congruence.
    + exfalso. simpl in E. injection E as Ec _. congruence.
    + rewrite !app_s in E. apply app_inv in E. destruct (IH (y' :: q) s t E) as [-> ->]. auto.
Qed.

Lemma mtext_back x y s t : headnot digit s -> headnot digit t -> (mtext x +++ s = mtext y +++ t) -> x = y /\ s = t.
Proof.
  intros Hs Ht E. unfold mtext in E. rewrite !app_s in E. destruct x as [l m], y as [l' m']. cbn [fst snd] in E.
  destruct (part_back l l' _ _ ""%string ""%string _ _ (part_form _ l) (part_form _ l') E) as [-> E']. apply app_inv in E'. apply dec_split in E'; [|exact Hs|exact Ht]. destruct E' as [-> ->]. auto.
Qed.

Lemma mtext_head x : exists c r, mtext x = String c r /\ c <> ")"%char.
Proof. destruct x. unfold mtext, ptext. cbn [fst snd]. eexists _, _. split; [reflexivity|discriminate]. Qed.

Lemma type_back t u i j s : type_str i t = Ret s -> type_str j u = Ret s -> t = u.
Proof.
  rewrite !type_form. intros A B. apply Ret_inj in A. apply Ret_inj in B. subst s. apply app_inv in B.
  apply (sep_back mtext ")"%char) in B; [symmetry; apply B|discriminate|reflexivity|exact mtext_back|exact mtext_head].
Qed.

Lemma rep_back r r' i j s : rep_str i r = Ret s -> rep_str j r' = Ret s -> map (fun p => (is_lambda (snd p), is_m (snd p))) r = map (fun p => (is_lambda (snd p), is_m (snd p))) r'.
Proof.
  rewrite !rep_form. intros A B. apply Ret_inj in A. apply Ret_inj in B. subst s. apply app_inv in B.
  rewrite <- (map_map (fun p => (is_lambda (snd p), is_m (snd p))) mtext r), <- (map_map (fun p => (is_lambda (snd p), is_m (snd p))) mtext r') in B.
  apply (sep_back mtext ")"%char) in B; [symmetry; apply B|discriminate|reflexivity|exact mtext_back|exact mtext_head].
Qed.

(* ---- the classes of objects named by a partition ---- *)
Lemma syt_back i l m s : syt_str i l = Ret s -> syt_str i m = Ret s -> l = m.
Proof.
  unfold syt_str. rewrite !part_form. cbn [bind]. intros A B. apply Ret_inj in A. apply Ret_inj in B. subst s. do 2 apply app_inv in B.
  symmetry. apply (part_back m l ""%string ""%string ""%string ""%string _ _ (part_form _ m) (part_form _ l)). rewrite !app_e. exact B.
Qed.
Lemma cclass_back i l m s : cclass_str i l = Ret s -> cclass_str i m = Ret s -> l = m.
Proof.
  unfold cclass_str. rewrite !part_form. cbn [bind]. intros A B. apply Ret_inj in A. apply Ret_inj in B. subst s. do 2 apply app_inv in B.
  symmetry. apply (part_back m l ""%string ""%string ""%string ""%string _ _ (part_form _ m) (part_form _ l)). rewrite !app_e. exact B.
Qed.
Lemma irrep_back i j l m s : irrep_str i l = Ret s -> irrep_str j m = Ret s -> l = m.
Proof.
  unfold irrep_str. rewrite !part_form. cbn [bind]. intros A B. apply Ret_inj in A. apply Ret_inj in B. subst s. apply app_inv in B.
  symmetry. exact (proj1 (part_back m l _ _ ""%string ""%string _ _ (part_form _ m) (part_form _ l) B)).
Qed.

(* ---- group elements ---- *)
Lemma celt_back x y s t : (celt_str x +++ s = celt_str y +++ t) -> x = y /\ s = t.
Proof.
  destruct x as [n i], y as [n' i']. unfold celt_str. cbn [c_n c_i]. rewrite !app_s. intros E. apply app_inv in E. apply dec_split in E; [|reflexivity|reflexivity]. destruct E as [-> E].
  apply app_inv in E. apply dec_split in E; [|reflexivity|reflexivity]. destruct E as [-> E]. apply app_inv in E. auto.
Qed.
Lemma delt_back x y s t : (delt_str x +++ s = delt_str y +++ t) -> x = y /\ s = t.
Proof.
  destruct x as [n i e], y as [n' i' e']. unfold delt_str. cbn [d_n d_i d_s]. rewrite !app_s. intros E. apply app_inv in E. apply dec_split in E; [|reflexivity|reflexivity]. destruct E as [-> E].
  apply app_inv in E. apply dec_split in E; [|reflexivity|reflexivity]. destruct E as [-> E]. apply app_inv in E. apply dec_split in E; [|reflexivity|reflexivity]. destruct E as [-> E]. apply app_inv in E. auto.
Qed.
Lemma pelt_back {A B} (s1 : A -> string) (s2 : B -> string) :
  (forall x y s t, (s1 x +++ s = s1 y +++ t) -> x = y /\ s = t) -> (forall x y s t, (s2 x +++ s = s2 y +++ t) -> x = y /\ s = t) ->
  forall x y s t, (pelt_str s1 s2 x +++ s = pelt_str s1 s2 y +++ t) -> x = y /\ s = t.
Proof.
  intros H1 H2 [a b] [a' b'] s t E. unfold pelt_str in E. cbn [fst snd] in E. rewrite !app_s in E. apply app_inv in E. apply H1 in E as [-> E]. apply app_inv in E. apply H2 in E as [-> E]. apply app_inv in E. auto.
Qed.

(* ---- functions ---- *)
Definition line (fmt : R -> string) (ex : perm * R) : string := (String.concat " " ("[" :: map dec (fst ex) ++ ["]"]) +++ " : " +++ fmt (snd ex) +++ nl)%string.

Lemma texts_concat {A} (h : A -> string) l : texts h l = String.concat "" (map h l).
Proof. induction l as [|x l IH]; [reflexivity|]. rewrite map_cons, concat_cons. simpl texts. rewrite IH. destruct l; reflexivity. Qed.

Lemma fun_form fmt ind f : 1 <= sf_n f -> length (sf_v f) = fact (Z.to_nat (sf_n f)) ->
  exists es, length es = length (sf_v f) /\ (forall i, 0 <= i < Z.of_nat (length es) -> sn_element (sf_n f) i = Ret (nth (Z.to_nat i) es [])) /\
    fun_str fmt ind f = Ret (String.concat "" (map (line fmt) (combine es (sf_v f)))).
Proof.
  intros Hn Hl. set (n := sf_n f) in *. set (v := sf_v f) in *.
  set (es := map (fun i => match sn_element n i with Ret e => e | _ => [] end) (zrange 0 (zlen v))).
  assert (Le : length es = length v) by (unfold es; rewrite map_length, zrange_length; unfold zlen; lia).
  assert (En : forall i, 0 <= i < Z.of_nat (length v) -> sn_element n i = Ret (nth (Z.to_nat i) es [])).
  { intros i Hi. destruct (proj1 (sn_bijection n Hn) i) as (e & Ee & _ & _). { rewrite sn_size_fact by lia. rewrite <- Hl. exact Hi. }
    rewrite Ee. f_equal. unfold es. rewrite (nth_indep _ [] (match sn_element n 0 with Ret e => e | _ => [] end)) by (rewrite map_length, zrange_length; unfold zlen; lia).
    rewrite (map_nth (fun i => match sn_element n i with Ret e => e | _ => [] end)). change (nth (Z.to_nat i) (zrange 0 (zlen v)) 0) with (znth (zrange 0 (zlen v)) i 0). rewrite znth_zrange by (unfold zlen; lia). rewrite Z.add_0_l, Ee. reflexivity. }
  exists es. split; [exact Le|]. split; [intros i Hi; apply En; lia|].
  unfold fun_str, sf_N. fold n v. rewrite <- texts_concat.
  assert (Lc : zlen (combine es v) = zlen v) by (unfold zlen; rewrite combine_length; lia).
  transitivity (zfor 0 (zlen (combine es v)) (fun i s => ex <- rd (combine es v) i ;; Ret (s +++ line fmt ex)) ""%string).
  - rewrite Lc. unfold zfor. apply foldM_ext. intros i s Hi. apply in_zrange in Hi. rewrite En by (unfold zlen in Hi; lia). cbn [bind].
    rewrite perm_form. cbn [bind]. rewrite (rd_ok v i 0%R) by lia. rewrite (rd_ok (combine es v) i ([], 0%R)) by lia. cbn [bind]. unfold znth. rewrite combine_nth by exact Le. unfold line. cbn [fst snd]. rewrite perm_concat. reflexivity.
  - rewrite loop_texts0. reflexivity.
Qed.

Definition notnl (c : ascii) : bool := negb (Ascii.eqb c (ascii_of_nat 10)).

Lemma lines_back fmt : (forall x y, fmt x = fmt y -> x = y) -> (forall x, allch notnl (fmt x) = true) ->
  forall l l', texts (line fmt) l = texts (line fmt) l' -> l = l'.
Proof.
  intros Hi Hn. induction l as [|[e x] l IH]; intros [|[e' x'] l'] E; cbn [texts fold_right] in E.
  - reflexivity.
  - exfalso. unfold line in E. cbn [fst snd] in E. rewrite <- perm_concat in E. discriminate E.
  - exfalso. unfold line in E. cbn [fst snd] in E. rewrite <- perm_concat in E. discriminate E.
  - fold (texts (line fmt) l) in E. fold (texts (line fmt) l') in E. unfold line at 1 3 in E. cbn [fst snd] in E. rewrite <- !perm_concat, !app_s in E. apply app_inv in E. apply blanks_split in E; [|reflexivity|reflexivity]. destruct E as [-> E].
    do 2 apply app_inv in E. apply (split_at notnl) in E; [|apply Hn|apply Hn|reflexivity|reflexivity]. destruct E as [Ex E]. apply app_inv in E. rewrite (Hi _ _ Ex), (IH _ E). reflexivity.
Qed.

Lemma fun_back fmt i j f g s : (forall x y, fmt x = fmt y -> x = y) -> (forall x, allch notnl (fmt x) = true) ->
  1 <= sf_n f -> length (sf_v f) = fact (Z.to_nat (sf_n f)) -> 1 <= sf_n g -> length (sf_v g) = fact (Z.to_nat (sf_n g)) ->
  fun_str fmt i f = Ret s -> fun_str fmt j g = Ret s -> f = g.
Proof.
  intros Hi Hn A1 A2 B1 B2 F G. destruct (fun_form fmt i f A1 A2) as (es & Le & Ee & Fs). destruct (fun_form fmt j g B1 B2) as (es' & Le' & Ee' & Gs).
  rewrite F in Fs. rewrite G in Gs. apply Ret_inj in Fs. apply Ret_inj in Gs. rewrite <- texts_concat in Fs, Gs. rewrite Fs in Gs. apply (lines_back fmt Hi Hn) in Gs.
  assert (Ev : sf_v f = sf_v g).
  { transitivity (map snd (combine es (sf_v f))); [|rewrite Gs]; [symmetry|]; clear - Le Le'.
    - revert Le. generalize (sf_v f). induction es as [|e es IH]; intros [|x v] L; simpl in *; try discriminate; [reflexivity|]. f_equal. apply IH. lia.
    - revert Le'. generalize (sf_v g). induction es' as [|e es' IH]; intros [|x v] L; simpl in *; try discriminate; [reflexivity|]. f_equal. apply IH. lia. }
  assert (Es : es = es').
  { transitivity (map fst (combine es (sf_v f))); [|rewrite Gs]; [symmetry|]; clear - Le Le'.
    - revert Le. generalize (sf_v f). induction es as [|e es IH]; intros [|x v] L; simpl in *; try discriminate; [reflexivity|]. f_equal. apply IH. lia.
    - revert Le'. generalize (sf_v g). induction es' as [|e es' IH]; intros [|x v] L; simpl in *; try discriminate; [reflexivity|]. f_equal. apply IH. lia. }
  assert (P : 0 < Z.of_nat (length es)) by (rewrite Le, A2; pose proof (lt_O_fact (Z.to_nat (sf_n f))); lia).
  pose proof (Ee 0 ltac:(lia)) as E0. rewrite Es in P. pose proof (Ee' 0 ltac:(lia)) as E0'. rewrite <- Es in E0'.
  destruct (proj1 (sn_bijection (sf_n f) A1) 0) as (e & Q & Pe & _). { rewrite sn_size_fact by lia. pose proof (lt_O_fact (Z.to_nat (sf_n f))). lia. }
  destruct (proj1 (sn_bijection (sf_n g) B1) 0) as (e' & Q' & Pe' & _). { rewrite sn_size_fact by lia. pose proof (lt_O_fact (Z.to_nat (sf_n g))). lia. }
  assert (e = e') by congruence. subst e'. destruct f as [nf vf], g as [ng vg]. cbn [sf_n sf_v] in *. subst vg. f_equal.
  destruct Pe as [L1 _]. destruct Pe' as [L2 _]. unfold zlen in *. lia.
Qed.

Lemma quiet_element n e : 0 <= n -> quiet (sn_element n e).
Proof.
  intros Hn. unfold sn_element. rewrite p_identity_ok by lia. cbn [bind]. apply quiet_bind.
  - unfold sn_digits. apply quiet_bind; [|intros; right; eauto]. apply quiet_foldM. intros i [s' e']. apply quiet_bind; [unfold cdiv; destruct (_ =? 0); [left|right]; eauto|].
    intros q. apply quiet_bind; [apply quiet_wr|]. intros s2. apply quiet_bind; [unfold cmod; destruct (_ =? 0); [left|right]; eauto|]. intros; right; eauto.
  - intros s. apply quiet_foldM. intros. apply quiet_sn_insert.
Qed.

(* more values than elements: the labels are read outside the array *)
Lemma fun_out fmt ind f : 2 <= sf_n f -> Z.of_nat (fact (Z.to_nat (sf_n f))) < sf_N f -> fun_str fmt ind f = UB.
Proof.
  intros Hn Hl. unfold fun_str. apply (foldM_UB _ _ _ (Z.of_nat (fact (Z.to_nat (sf_n f))))).
  - intros i s. apply quiet_bind; [apply quiet_element; lia|intros e; rewrite perm_form; cbn [bind]; apply quiet_bind; [apply quiet_rd|intros; right; eauto]].
  - apply in_zrange. lia.
  - intros s. rewrite sn_element_out; [reflexivity|exact Hn|]. change (zfact (sf_n f)) with (sn_size (sf_n f)). rewrite sn_size_fact by lia. lia.
Qed.

(* n!/m! exceeds (n-m+1)! for 2 <= m < n *)
Lemma quotient_bigger k m : (2 <= m)%nat -> (fact (S (S k)) * fact m < fact (m + S k))%nat.
Proof.
  intros Hm. induction k as [|k IH].
  - replace (m + 1)%nat with (S m) by lia. cbn [fact]. pose proof (lt_O_fact m). nia.
  - replace (m + S (S k))%nat with (S (m + S k)) by lia. change (fact (S (m + S k))) with (S (m + S k) * fact (m + S k))%nat. change (fact (S (S (S k)))) with (S (S (S k)) * fact (S (S k)))%nat. nia.
Qed.

Lemma quotient_size_big n m N : 2 <= m < n -> snsm_size n m = Ret N -> Z.of_nat (fact (Z.to_nat (n - m + 1))) < N.
Proof.
  intros H E. destruct (snsm_round_trip n m ltac:(lia)) as (k & Ek & Mk & _). rewrite E in Ek. apply Ret_inj in Ek. subst k. rewrite !sn_size_fact in Mk by lia.
  pose proof (lt_O_fact (Z.to_nat m)). pose proof (quotient_bigger (Z.to_nat (n - m - 1)) (Z.to_nat m) ltac:(lia)) as Q.
  replace (S (S (Z.to_nat (n - m - 1)))) with (Z.to_nat (n - m + 1)) in Q by lia. replace (Z.to_nat m + S (Z.to_nat (n - m - 1)))%nat with (Z.to_nat n) in Q by lia.
  apply inj_lt in Q. rewrite Nat2Z.inj_mul in Q. nia.
Qed.

(* Python's inv_snsm is inv: the result cannot be printed, nor asked for its value at a permutation of n *)
Lemma python_inv act n m f : good_act act n -> 2 <= m < n -> qf_n f = n -> qf_m f = m -> snsm_size n m = Ret (Z.of_nat (length (qf_v f))) ->
  exists F w g, fft_new2 n m = Ret F /\ fft_forward_q act F f = Ret w /\ fft_inv act F w = Ret g /\ (forall fmt ind, fun_str fmt ind g = UB) /\ (forall p, is_perm n p -> sf_at g p = Abort).
Proof.
  intros G H En Em E. destruct (inv_label act n m G ltac:(lia) f En Em E) as (F & w & A & B & C). exists F, w, (mkFun (n - m + 1) (qf_v f)).
  split; [exact A|]. split; [exact B|]. split; [exact C|]. split.
  - intros fmt ind. apply fun_out; cbn [sf_n]; [lia|]. unfold sf_N, zlen. cbn [sf_v]. exact (quotient_size_big n m _ H E).
  - intros p Hp. unfold sf_at, sn_index. cbn [sf_n]. replace (Z.to_nat (n - m + 1 - 1)) with (S (Z.to_nat (n - m - 1))) by lia. cbn [sn_index_rec].
    replace (zlen p =? _) with false; [reflexivity|]. symmetry. apply Z.eqb_neq. destruct Hp as [L _]. unfold zlen in *. lia.
Qed.

Lemma mtext_eq p : (mtext p = "[" +++ String.concat "," (map dec (fst p)) +++ "]:" +++ dec (snd p))%string.
Proof. unfold mtext, ptext. rewrite !app_s. reflexivity. Qed.

Lemma cycles_back i a b c d : (cycle_str i a b = cycle_str i c d -> a = c /\ b = d) /\ (transp_str i a b = transp_str i c d -> a = c /\ b = d).
Proof.
  split; intros E.
  - destruct (cycle_back i a b c d EmptyString EmptyString) as (A & B & _); [rewrite E; reflexivity|auto].
  - destruct (transp_back i a b c d EmptyString EmptyString) as (A & B & _); [rewrite E; reflexivity|auto].
Qed.

Lemma back_inj {A} (f : A -> string) : (forall x y s t, (f x +++ s = f y +++ t) -> x = y /\ s = t) -> forall x y, f x = f y -> x = y.
Proof. intros H x y E. apply (H x y EmptyString EmptyString). rewrite E. reflexivity. Qed.

Lemma elements_back :
  (forall x y, celt_str x = celt_str y -> x = y) /\ (forall x y, delt_str x = delt_str y -> x = y) /\
  (forall x y, pelt_str celt_str delt_str x = pelt_str celt_str delt_str y -> x = y) /\
  (forall x y, pelt_str (pelt_str celt_str celt_str) delt_str x = pelt_str (pelt_str celt_str celt_str) delt_str y -> x = y).
Proof.
  split; [exact (back_inj _ celt_back)|]. split; [exact (back_inj _ delt_back)|]. split; apply back_inj.
  - exact (pelt_back _ _ celt_back delt_back).
  - exact (pelt_back _ _ (pelt_back _ _ celt_back celt_back) delt_back).
Qed.

Lemma notnl_all s : (forall a b, s <> a +++ nl +++ b) -> allch notnl s = true.
Proof.
  induction s as [|c s IH]; intros H; [reflexivity|]. simpl. apply andb_true_iff. split.
  - unfold notnl. destruct (Ascii.eqb c (ascii_of_nat 10)) eqn:E; [|reflexivity]. exfalso. apply Ascii.eqb_eq in E. subst c. exact (H EmptyString s eq_refl).
  - apply IH. intros a b E. apply (H (String c a) b). simpl. rewrite E. reflexivity.
Qed.

Lemma fun_apart fmt i j f g s : (forall x y, fmt x = fmt y -> x = y) -> (forall x a b, fmt x <> a +++ nl +++ b) ->
  1 <= sf_n f -> length (sf_v f) = fact (Z.to_nat (sf_n f)) -> 1 <= sf_n g -> length (sf_v g) = fact (Z.to_nat (sf_n g)) ->
  fun_str fmt i f = Ret s -> fun_str fmt j g = Ret s -> f = g.
Proof. intros Hi Hn. apply fun_back; [exact Hi|]. intros x. apply notnl_all, Hn. Qed.

Lemma python_inv_1 n f : 2 <= n -> qf_n f = n -> qf_m f = 1 -> snsm_size n 1 = Ret (Z.of_nat (length (qf_v f))) ->
  exists F w g, fft_new2 n 1 = Ret F /\ fft_forward_q rows_cycle F f = Ret w /\ fft_inv rows_cycle F w = Ret g /\ sf_n g = n /\ sf_v g = qf_v f /\
    (forall fmt indent, exists s, fun_str fmt indent g = Ret s) /\ (forall p, is_perm n p -> exists x, sf_at g p = Ret x).
Proof.
  intros H En Em E. destruct (inv_label rows_cycle n 1 (good_rows n ltac:(lia)) ltac:(lia) f En Em E) as (F & w & A & B & C). exists F, w, (mkFun (n - 1 + 1) (qf_v f)).
  replace (n - 1 + 1) with n in * by lia. split; [exact A|]. split; [exact B|]. split; [exact C|]. split; [reflexivity|]. split; [reflexivity|].
  assert (L : length (qf_v f) = fact (Z.to_nat n)).
  { unfold snsm_size, cdiv in E. change (zfact 1) with 1 in E. cbn [Z.eqb] in E. apply Ret_inj in E. rewrite Z.quot_1_r in E. change (zfact n) with (sn_size n) in E. rewrite sn_size_fact in E by lia. lia. }
  split.
  - intros fmt ind. destruct (fun_form fmt ind (mkFun n (qf_v f))) as (es & _ & _ & Q); cbn [sf_n sf_v]; [lia|exact L|]. eauto.
  - intros p Hp. unfold sf_at. cbn [sf_n sf_v]. destruct (proj2 (sn_bijection n ltac:(lia)) p Hp) as (i & Ei & Hi & _). rewrite Ei. cbn [bind]. unfold sf_get. cbn [sf_v].
    rewrite sn_size_fact in Hi by lia. rewrite (rd_ok (qf_v f) i 0%R) by (unfold zlen; lia). eauto.
Qed.

Lemma cyclic_back a b s t : cyclic_str a +++ s = cyclic_str b +++ t -> a = b /\ s = t.
Proof. unfold cyclic_str. rewrite !app_s. intros E. apply app_inv in E. apply dec_split in E; [|reflexivity|reflexivity]. destruct E as [-> E]. apply app_inv in E. auto. Qed.

Lemma pgroup_back a b c : a <> b ->
  pgroup_str (cyclic_str a) (cyclic_str c) = pgroup_str (cyclic_str b) (cyclic_str c) /\ cyclic_str a <> cyclic_str b /\ pgroup_str (cyclic_str c) (cyclic_str a) <> pgroup_str (cyclic_str c) (cyclic_str b).
Proof.
  intros H. split; [reflexivity|]. split; intros E; apply H.
  - exact (back_inj _ cyclic_back a b E).
  - unfold pgroup_str in E. apply app_inv in E. apply cyclic_back in E. tauto.
Qed.
