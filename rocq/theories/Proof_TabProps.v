(* The tableau properties C19-C22. *)
From Coq Require Import ZArith List Bool Lia ZifyBool ZifyNat Sorted Permutation.
From Verif Require Import Model_Base Model_Part Model_Comb Model_Tab Spec_Perm Spec_Part Spec_Tab
  Proof_Base Proof_Perm Proof_Sn Proof_Part Proof_PartProps Proof_Tab.
Import ListNotations.
Open Scope Z_scope.

(* ---- C19 ---- *)

Lemma tableau_row_ok n lambda r : is_part n lambda -> In r (corners lambda) -> tableau_row (prem lambda r) lambda = Ret r.
Proof.
  intros Hl Hr. apply in_corners in Hr as (Hr & Hc). assert (ppos lambda) as Pl by eauto.
  pose proof (zlen_prem lambda r Pl Hr) as Lm. unfold tableau_row, ip_height.
  destruct (zforb_inv (fun i (_ : unit) => i <= r) (fun j => j = r) 0 (zlen (prem lambda r))
    (fun j (_ : unit) => a <- rd (prem lambda r) j ;; b <- rd lambda j ;; if a <? b then Ret (inr j) else Ret (inl tt)) tt) as [(s & E & P)|(j & E & P)].
  - apply zlen_nonneg.
  - lia.
  - intros i s Hi P. rewrite (rd_ok _ i 0) by lia. cbn [bind]. rewrite (rd_ok _ i 0) by lia. cbn [bind].
    rewrite <- !row_znth, row_prem by (auto; lia). destruct (Z.eqb_spec i r).
    + subst. destruct (Z.ltb_spec (row lambda r - 1) (row lambda r)); [|lia]. right. eauto.
    + destruct (Z.ltb_spec (row lambda i - 0) (row lambda i)); [lia|]. left. exists tt. split; auto. lia.
  - rewrite E. cbn [bind]. f_equal. lia.
  - rewrite E. cbn [bind]. f_equal. auto.
Qed.

Lemma foldM_map {A B} (f : A -> outcome B) (g : A -> B) l acc : (forall x, In x l -> f x = Ret (g x)) ->
  foldM (fun x acc => t <- f x ;; Ret (acc ++ [t])) l acc = Ret (acc ++ map g l).
Proof.
  revert acc; induction l as [|x l IH]; intros acc H; cbn [foldM map]; [rewrite app_nil_r; reflexivity|].
  rewrite H by (left; auto). cbn [bind]. rewrite IH by (intros; apply H; right; auto). rewrite <- app_assoc. reflexivity.
Qed.

Lemma cb_make_tableaux_ok k : forall lambda, is_part (Z.of_nat k + 1) lambda ->
  cb_make_tableaux k lambda = Ret (map tw (paths (S k) lambda)).
Proof.
  induction k as [|k IH]; intros lambda Hl.
  - apply is_part_1 in Hl. subst. reflexivity.
  - cbn [cb_make_tableaux]. rewrite (cb_parents_ok _ _ Hl). cbn [bind].
    assert (forall is acc, (forall r, In r is -> In r (corners lambda)) ->
      foldM (fun mu acc =>
               i <- tableau_row mu lambda ;;
               sub <- cb_make_tableaux k mu ;;
               foldM (fun a acc => t <- yt_add a i (Z.of_nat (S k) + 1) ;; Ret (acc ++ [t])) sub acc) (map (prem lambda) is) acc
      = Ret (acc ++ map tw (flat_map (fun r => map (cons r) (paths (S k) (prem lambda r))) is))) as F.
    { induction is as [|r is IHi]; intros acc Hi; cbn [foldM map flat_map]; [rewrite app_nil_r; reflexivity|].
      pose proof (Hi r (or_introl eq_refl)) as Hr. rewrite (tableau_row_ok _ _ _ Hl Hr). cbn [bind].
      pose proof (proj1 (in_corners _ _) Hr) as (Hr1 & Hr2).
      assert (is_part (Z.of_nat k + 1) (prem lambda r)) as Hp.
      { replace (Z.of_nat k + 1) with (Z.of_nat (S k) + 1 - 1) by lia. apply is_part_prem; auto. }
      rewrite (IH _ Hp). cbn [bind]. rewrite foldM_map with (g := fun a => yadd a r (Z.of_nat (S k) + 1)).
      - cbn [bind]. rewrite IHi by (intros; apply Hi; right; auto). f_equal. rewrite map_app, app_assoc. f_equal. f_equal.
        rewrite !map_map. apply map_ext_in. intros w Hw. apply paths_len in Hw. cbn [tw]. f_equal. unfold zlen. lia.
      - intros a Ha. apply in_map_iff in Ha as (w & <- & Hw). apply yt_add_ok.
        replace (Z.of_nat k + 1) with (Z.of_nat (S k)) in Hp by lia.
        pose proof (proj1 (paths_standard (S k) _ Hp) _ Hw) as St.
        pose proof (zlen_prem lambda r (is_part_ppos _ _ Hl) Hr1). rewrite <- zlen_shp.
        rewrite (proj1 (has_shape_shp _ _) (proj1 St)). lia. }
    rewrite F by auto. reflexivity.
Qed.

Lemma young_tableaux_ok n lambda : is_part n lambda -> 1 <= n -> young_tableaux lambda = Ret (map tw (paths (Z.to_nat n) lambda)).
Proof.
  intros Hl Hn. unfold young_tableaux, ip_getn. pose proof (is_part_sum _ _ Hl) as Hs. unfold zsum in Hs. 
  replace (fold_left Z.add lambda 0) with n.
  2:{ rewrite <- Hs. symmetry. apply fold_symmetric; intros; lia. }
  destruct (Z.ltb_spec n 0); [lia|]. destruct (Z.eqb_spec n 0); [lia|]. rewrite cb_make_tableaux_ok.
  - f_equal. f_equal. f_equal. lia.
  - replace (Z.of_nat (Z.to_nat (n - 1)) + 1) with n by lia. auto.
Qed.

Lemma NoDup_map_inj_in {A B} (f : A -> B) l : (forall x y, In x l -> In y l -> f x = f y -> x = y) -> NoDup l -> NoDup (map f l).
Proof.
  induction l as [|x l IH]; intros H N; cbn; [constructor|]. inv N. constructor.
  - intros K. apply in_map_iff in K as (y & E & Hy). assert (y = x); [|congruence]. apply H; auto; [right|left]; auto.
  - apply IH; auto. intros; apply H; auto; right; auto.
Qed.

(* rows of the entries of tw w *)
Lemma row_of_In t v r : row_of t v r <-> 0 <= r /\ In v (znth t r []).
Proof. reflexivity. Qed.

Lemma row_of_yadd t r v u s : 0 <= r <= zlen t -> (row_of (yadd t r v) u s <-> row_of t u s \/ (u = v /\ s = r)).
Proof.
  intros Hr. unfold yadd. rewrite !row_of_In. destruct (Z.ltb_spec r (zlen t)).
  - destruct (Z_le_dec 0 s); [|intuition lia]. rewrite znth_zupd by lia. destruct (Z.eqb_spec s r).
    + subst. rewrite in_app_iff. cbn. intuition.
    + intuition.
  - destruct (Z_le_dec 0 s); [|intuition lia]. rewrite znth_app by lia. destruct (Z.ltb_spec s (zlen t)).
    + intuition lia.
    + assert (znth t s [] = []) as E by (unfold znth; apply nth_overflow; unfold zlen in *; lia). rewrite E.
      destruct (Z.eq_dec s r).
      * subst. replace (r - zlen t) with 0 by lia. change (znth [[v]] 0 []) with [v]. cbn. intuition.
      * assert (znth [[v]] (s - zlen t) [] = []) as E1 by (unfold znth; apply nth_overflow; cbn; lia). rewrite E1. cbn. intuition.
Qed.

Lemma row_of_tw k : forall lambda w v s, is_part (Z.of_nat k) lambda -> In w (paths k lambda) ->
  (row_of (tw w) v s <-> 1 <= v <= Z.of_nat k /\ znth w (Z.of_nat k - v) (-1) = s).
Proof.
  induction k as [|k IH]; intros lambda w v s Hl Hw.
  - destruct Hw as [<-|[]]. rewrite row_of_In. split.
    + intros (_ & H). exfalso. revert H. unfold znth. destruct (Z.to_nat s); auto.
    + lia.
  - cbn [paths] in Hw. apply in_flat_map in Hw as (r & Hr & H). apply in_map_iff in H as (u & <- & Hu).
    apply in_corners in Hr as (Hr & Hc).
    assert (is_part (Z.of_nat k) (prem lambda r)) as Hp.
    { replace (Z.of_nat k) with (Z.of_nat (S k) - 1) by lia. apply is_part_prem; auto. }
    pose proof (proj1 (paths_standard k _ Hp) _ Hu) as St. pose proof (paths_len _ _ _ Hu) as L.
    pose proof (zlen_prem lambda r (is_part_ppos _ _ Hl) Hr). cbn [tw]. rewrite row_of_yadd.
    + rewrite (IH _ _ _ _ Hp Hu). unfold zlen. rewrite L. destruct (Z_lt_dec (Z.of_nat (S k)) v); [lia|].
      rewrite znth_cons by lia. destruct (Z.eqb_spec (Z.of_nat (S k) - v) 0).
      * intuition lia.
      * replace (Z.of_nat (S k) - v - 1) with (Z.of_nat k - v) by lia. intuition lia.
    + rewrite <- zlen_shp, (proj1 (has_shape_shp _ _) (proj1 St)). lia.
Qed.

Definition wlex (w w' : list Z) : Prop :=
  exists i, 0 <= i < zlen w /\ znth w' i (-1) < znth w i (-1) /\ forall j, 0 <= j < i -> znth w j (-1) = znth w' j (-1).

Lemma paths_sorted k : forall lambda, StronglySorted wlex (paths k lambda).
Proof.
  induction k as [|k IH]; intros lambda; cbn [paths]; [repeat constructor|].
  pose proof (corners_sorted lambda) as CS. revert CS. generalize (corners lambda) as cs.
  induction cs as [|r cs IHc]; intros CS; cbn [flat_map]; [constructor|]. inv CS.
  apply StronglySorted_app; auto.
  - assert (forall l, StronglySorted wlex l -> StronglySorted wlex (map (cons r) l)) as M.
    { induction l as [|x l IHl]; intros S; cbn; constructor; inv S; auto. rewrite Forall_forall in *. intros y Hy.
      apply in_map_iff in Hy as (z & <- & Hz). destruct (H4 z Hz) as (i & H5 & H6 & H7). exists (i + 1). split; [|split].
      - rewrite zlen_cons. lia.
      - rewrite !znth_cons by lia. destruct (Z.eqb_spec (i + 1) 0); [lia|]. replace (i + 1 - 1) with i by lia. auto.
      - intros j Hj. rewrite !znth_cons by lia. destruct (Z.eqb_spec j 0); auto. apply H7. lia. }
    apply M, IH.
  - intros x y Hx Hy. apply in_map_iff in Hx as (u & <- & _). apply in_flat_map in Hy as (s & Hs & Hy).
    apply in_map_iff in Hy as (v & <- & _). rewrite Forall_forall in H2. specialize (H2 s Hs).
    exists 0. split; [rewrite zlen_cons; pose proof (zlen_nonneg u); lia|]. split; [|lia]. unfold znth. cbn. lia.
Qed.

Lemma wlex_last_letter k lambda w w' : is_part (Z.of_nat k) lambda -> In w (paths k lambda) -> In w' (paths k lambda) ->
  wlex w w' -> last_letter (tw w) (tw w').
Proof.
  intros Hl Hw Hw' (i & Hi & H1 & H2). pose proof (paths_len _ _ _ Hw) as L.
  exists (Z.of_nat k - i), (znth w i (-1)), (znth w' i (-1)).
  assert (0 <= i < Z.of_nat k) as Hi' by (unfold zlen in Hi; lia).
  rewrite !(row_of_tw k lambda) by auto. replace (Z.of_nat k - (Z.of_nat k - i)) with i by lia.
  split; [lia|]. split; [lia|]. split; [auto|]. intros v s Hv. rewrite !(row_of_tw k lambda) by auto.
  split; intros (A & B); (split; [auto|]); rewrite <- B; [symmetry|]; apply H2; lia.
Qed.

Lemma tableaux_complete n lambda : is_part n lambda -> 1 <= n ->
  exists L, young_tableaux lambda = Ret L /\ NoDup L /\ (forall t, In t L <-> standard lambda t) /\ StronglySorted last_letter L.
Proof.
  intros Hl Hn. exists (map tw (paths (Z.to_nat n) lambda)).
  assert (is_part (Z.of_nat (Z.to_nat n)) lambda) as Hl' by (replace (Z.of_nat (Z.to_nat n)) with n by lia; auto).
  destruct (paths_standard _ _ Hl') as (A & B). split; [apply young_tableaux_ok; auto|]. split; [|split].
  - apply NoDup_map_inj_in; [|apply NoDup_paths]. intros x y Hx Hy. apply tw_inj with (lambda := lambda) (k := Z.to_nat n); auto.
  - intros t. rewrite in_map_iff. split.
    + intros (w & <- & Hw). auto.
    + intros St. destruct (B t St) as (w & Hw & E). eauto.
  - pose proof (paths_sorted (Z.to_nat n) lambda) as S.
    assert (forall w, In w (paths (Z.to_nat n) lambda) -> In w (paths (Z.to_nat n) lambda)) as I by auto.
    revert S I. generalize (paths (Z.to_nat n) lambda) at 1 2 4. induction l as [|w l IH]; intros S I; cbn; constructor; inv S.
    + apply IH; auto. intros; apply I; right; auto.
    + rewrite Forall_forall in *. intros y Hy. apply in_map_iff in Hy as (w' & <- & Hw').
      apply (wlex_last_letter (Z.to_nat n) lambda); auto; apply I; [left|right]; auto.
Qed.

(* ---- C21: lookup ---- *)

Lemma yt_at_ok t r c : cell (shp t) r c -> yt_at t r c = Ret (entry t r c).
Proof.
  intros Hc. pose proof (cell_rows _ _ _ Hc) as Hr. rewrite zlen_shp in Hr. apply cell_iff in Hc. rewrite row_shp in Hc.
  unfold yt_at. rewrite (vat_ok t r []) by lia. cbn [bind]. rewrite (vat_ok _ c 0) by lia. reflexivity.
Qed.

Lemma vat_out {A} (l : list A) i : ~ (0 <= i < zlen l) -> vat l i = Throw.
Proof.
  intros H. unfold vat. destruct (Z.leb_spec 0 i); [|reflexivity]. destruct (nth_error l (Z.to_nat i)) eqn:E; [|reflexivity].
  exfalso. apply H. assert (Z.to_nat i < length l)%nat by (apply nth_error_Some; congruence). unfold zlen. lia.
Qed.

Lemma yt_at_throw t r c : ~ cell (shp t) r c -> yt_at t r c = Throw.
Proof.
  intros Hc. unfold yt_at. destruct (Z_le_dec 0 r); [destruct (Z_lt_dec r (zlen t))|].
  - rewrite (vat_ok t r []) by lia. cbn [bind]. apply vat_out. intros K. apply Hc. apply cell_iff. rewrite row_shp. auto.
  - rewrite vat_out by lia. reflexivity.
  - rewrite vat_out by lia. reflexivity.
Qed.

Lemma row_find_none rw m j : ~ In m rw -> row_find rw m j = None.
Proof.
  revert j; induction rw as [|x rw IH]; intros j H; cbn; [reflexivity|]. destruct (Z.eqb_spec x m); [subst; exfalso; apply H; left; auto|].
  apply IH. intros K; apply H; right; auto.
Qed.

Lemma row_find_some rw m j : In m rw -> exists c, row_find rw m j = Some (j + c) /\ 0 <= c < zlen rw /\ znth rw c 0 = m.
Proof.
  revert j; induction rw as [|x rw IH]; intros j H; [destruct H|]. cbn [row_find]. rewrite zlen_cons. pose proof (zlen_nonneg rw).
  destruct (Z.eqb_spec x m).
  - exists 0. split; [f_equal; lia|]. split; [lia|]. subst; reflexivity.
  - destruct H as [H|H]; [congruence|]. destruct (IH (j + 1) H) as (c & E & Hc & Hm). exists (c + 1). split; [rewrite E; f_equal; lia|].
    split; [lia|]. rewrite znth_cons by lia. destruct (Z.eqb_spec (c + 1) 0); [lia|]. replace (c + 1 - 1) with c by lia. auto.
Qed.

Lemma yt_find_none t m i : ~ In m (concat t) -> yt_find t m i = None.
Proof.
  revert i; induction t as [|rw t IH]; intros i H; cbn [yt_find]; [reflexivity|]. cbn [concat] in H. rewrite in_app_iff in H.
  rewrite row_find_none by tauto. apply IH. tauto.
Qed.

Lemma yt_find_some t m i : In m (concat t) -> exists r c, yt_find t m i = Some (i + r, c) /\ cell (shp t) r c /\ entry t r c = m.
Proof.
  revert i; induction t as [|rw t IH]; intros i H; [destruct H|]. cbn [yt_find concat] in *.
  destruct (in_dec Z.eq_dec m rw) as [I|I].
  - destruct (row_find_some rw m 0 I) as (c & E & Hc & Hm). rewrite E. exists 0, c. split; [f_equal; f_equal; lia|].
    cbn [shp map]. rewrite cell_cons, entry_cons by lia. cbn. auto.
  - rewrite row_find_none by auto. apply in_app_iff in H as [H|H]; [contradiction|].
    destruct (IH (i + 1) H) as (r & c & E & Hc & Hm). pose proof (cell_rows _ _ _ Hc). exists (r + 1), c. split; [rewrite E; f_equal; f_equal; lia|].
    cbn [shp map]. rewrite cell_cons, entry_cons by lia. destruct (Z.eqb_spec (r + 1) 0); [lia|]. replace (r + 1 - 1) with r by lia. auto.
Qed.

Lemma yt_index_ok t r c : NoDup (concat t) -> cell (shp t) r c -> yt_index t (entry t r c) = (r, c).
Proof.
  intros N Hc. unfold yt_index. destruct (yt_find_some t (entry t r c) 0) as (r' & c' & E & Hc' & Hm).
  - apply In_concat_cell. eauto.
  - rewrite E. destruct (entry_inj t r' c' r c N Hc' Hc Hm) as (-> & ->). reflexivity.
Qed.

Lemma yt_index_absent t m : ~ In m (concat t) -> yt_index t m = (0, 0).
Proof. intros H. unfold yt_index. rewrite yt_find_none by auto. reflexivity. Qed.

(* the row-major tableau *)
Fixpoint rmaj (t : Z) (l : list Z) : list (list Z) :=
  match l with [] => [] | x :: l' => zrange t (t + x) :: rmaj (t + x) l' end.

Lemma yt_of_partition_fold l : forall t rows, ppos l ->
  foldM (fun len st => let '(t, rows) := st in if len <? 0 then Throw else Ret (t + len, rows ++ [zrange t (t + len)])) l (t, rows)
  = Ret (t + zsum l, rows ++ rmaj t l).
Proof.
  induction l as [|x l IH]; intros t rows Hp; cbn [foldM rmaj].
  - rewrite app_nil_r. change (zsum []) with 0. f_equal. f_equal. lia.
  - apply ppos_tl in Hp as (Hx & Hp). destruct (Z.ltb_spec x 0); [lia|]. cbn [bind]. rewrite IH by auto. rewrite zsum_cons, <- app_assoc.
    cbn [app]. f_equal. f_equal. lia.
Qed.

Lemma yt_of_partition_ok l : ppos l -> yt_of_partition l = Ret (rmaj 1 l).
Proof. intros H. unfold yt_of_partition. rewrite yt_of_partition_fold by auto. reflexivity. Qed.

Lemma shp_rmaj l : forall t, ppos l -> shp (rmaj t l) = l.
Proof.
  induction l as [|x l IH]; intros t Hp; cbn [rmaj shp map]; [reflexivity|]. apply ppos_tl in Hp as (Hx & Hp).
  f_equal; [|apply IH; auto]. rewrite zlen_zrange. lia.
Qed.

Lemma concat_rmaj l : forall t, ppos l -> concat (rmaj t l) = zrange t (t + zsum l).
Proof.
  induction l as [|x l IH]; intros t Hp; cbn [rmaj concat].
  - change (zsum []) with 0. rewrite zrange_nil by lia. reflexivity.
  - pose proof Hp as Hp'. apply ppos_tl in Hp as (Hx & Hp). rewrite IH by auto. rewrite zsum_cons.
    pose proof (ppos_zsum_len l Hp). pose proof (zlen_nonneg l).
    apply list_ext with (d := 0); [rewrite zlen_app, !zlen_zrange; lia|].
    intros i Hi. rewrite zlen_app, !zlen_zrange in Hi. rewrite znth_app, zlen_zrange by lia. destruct (Z.ltb_spec i (Z.max 0 (t + x - t))).
    + rewrite !znth_zrange by lia. lia.
    + rewrite !znth_zrange by lia. lia.
Qed.

(* entries of the row-major tableau: sum of the previous rows *)
Fixpoint psum (l : list Z) (r : nat) : Z := match r, l with S r', x :: l' => x + psum l' r' | _, _ => 0 end.

Lemma entry_rmaj l : forall t r c, ppos l -> cell l r c -> entry (rmaj t l) r c = t + psum l (Z.to_nat r) + c.
Proof.
  induction l as [|x l IH]; intros t r c Hp Hc.
  - apply cell_rows in Hc. unfold zlen in Hc. cbn in Hc. lia.
  - pose proof (cell_rows _ _ _ Hc) as Hr. apply ppos_tl in Hp as (Hx & Hp). rewrite cell_cons in Hc by lia. cbn [rmaj]. rewrite entry_cons by lia.
    destruct (Z.eqb_spec r 0).
    + subst. rewrite znth_zrange by lia. cbn. lia.
    + rewrite IH by auto. replace (Z.to_nat r) with (S (Z.to_nat (r - 1))) by lia. cbn [psum]. lia.
Qed.

Lemma psum_S l : forall r, psum l (S r) = psum l r + row l (Z.of_nat r).
Proof.
  induction l as [|x l IH]; intros r; [rewrite row_nil; destruct r; reflexivity|]. destruct r as [|r].
  - cbn. change (row (x :: l) 0) with x. destruct l; cbn; lia.
  - change (psum (x :: l) (S (S r))) with (x + psum l (S r)). change (psum (x :: l) (S r)) with (x + psum l r).
    rewrite IH, row_cons by lia. destruct (Z.eqb_spec (Z.of_nat (S r)) 0); [lia|]. replace (Z.of_nat (S r) - 1) with (Z.of_nat r) by lia. lia.
Qed.

Lemma is_perm_zrange n : 0 <= n -> is_perm n (zrange 1 (1 + n)).
Proof.
  intros H. split; [|split].
  - pose proof (zlen_zrange 1 (1 + n)) as E. unfold zlen in E. lia.
  - intros v Hv. apply in_zrange in Hv. lia.
  - apply NoDup_zrange.
Qed.

Lemma default_standard n lambda : is_part n lambda -> exists t, yt_of_partition lambda = Ret t /\ standard lambda t.
Proof.
  intros Hl. assert (ppos lambda) as Pl by eauto. exists (rmaj 1 lambda). split; [apply yt_of_partition_ok; auto|].
  split; [apply shp_rmaj; auto|]. split; [|split].
  - rewrite concat_rmaj by auto. apply is_perm_zrange. pose proof (ppos_zsum_len _ Pl). pose proof (zlen_nonneg lambda). lia.
  - intros r c C1 C2. rewrite !entry_rmaj by auto. lia.
  - intros r c C1 C2. rewrite !entry_rmaj by auto. pose proof (cell_rows _ _ _ C1).
    replace (Z.to_nat (r + 1)) with (S (Z.to_nat r)) by lia. rewrite psum_S. replace (Z.of_nat (Z.to_nat r)) with r by lia.
    apply cell_iff in C1. lia.
Qed.

Lemma yt_shape_ok t : yt_shape t = Ret (shp t).
Proof.
  unfold yt_shape, yt_k. assert (ip_zero (zlen t) = Ret (repeat 0 (length t))) as E0.
  { unfold ip_zero. destruct (Z.ltb_spec (zlen t) 0); [pose proof (zlen_nonneg t); lia|]. unfold zlen. rewrite Nat2Z.id. reflexivity. }
  rewrite E0. cbn [bind]. rewrite zlen_repeat. fold (zlen t).
  destruct (zfor_inv (fun i r => zlen r = zlen t /\ forall j, 0 <= j < zlen t -> row r j = if j <? i then row (shp t) j else 0) 0 (zlen t)
    (fun i r => row0 <- rd t i ;; ip_add r i (zlen row0)) (repeat 0 (length t))) as (s & E & Ls & P).
  - apply zlen_nonneg.
  - split; [apply zlen_repeat|]. intros j Hj. destruct (Z.ltb_spec j 0); [lia|]. rewrite row_znth. apply znth_repeat. exact Hj.
  - intros i s Hi (Ls & P). rewrite (rd_ok t i []) by lia. cbn [bind]. unfold ip_add.
    unfold ip_height. destruct (Z.ltb_spec i (zlen s)); [|lia].
    rewrite (rd_ok s i 0) by lia. cbn [bind]. rewrite wr_ok by lia. eexists. split; [reflexivity|].
    split; [rewrite zlen_zupd by lia; auto|]. intros j Hj. rewrite row_zupd by lia. destruct (Z.eqb_spec j i).
    + subst. destruct (Z.ltb_spec i (i + 1)); [|lia]. rewrite <- row_znth, P by lia. destruct (Z.ltb_spec i i); [lia|]. rewrite row_shp. lia.
    + rewrite P by lia. destruct (Z.ltb_spec j i), (Z.ltb_spec j (i + 1)); lia || reflexivity.
  - rewrite E. f_equal. apply list_ext with (d := 0); [rewrite zlen_shp; auto|]. intros j Hj. rewrite <- !row_znth. rewrite P by lia.
    destruct (Z.ltb_spec j (zlen t)); [reflexivity|lia].
Qed.

(* ---- C20 ---- *)

Ltac zcases := repeat match goal with |- context[?a =? ?b] => lazymatch a with context[_ =? _] => fail | _ => destruct (Z.eqb_spec a b) end end; try lia.

Definition swp (i j v : Z) : Z := if v =? i then j else if v =? j then i else v.

Definition tswap (i j : Z) (t : list (list Z)) : list (list Z) := map (map (swp i j)) t.

Lemma shp_tswap i j t : shp (tswap i j t) = shp t.
Proof. unfold shp, tswap. rewrite map_map. apply map_ext. intros. apply zlen_map. Qed.

Lemma entry_tswap i j t r c : cell (shp t) r c -> entry (tswap i j t) r c = swp i j (entry t r c).
Proof.
  intros Hc. pose proof (cell_rows _ _ _ Hc) as Hr. rewrite zlen_shp in Hr. apply cell_iff in Hc. rewrite row_shp in Hc.
  rewrite !entry_znth. unfold tswap. rewrite (znth_map _ t r [] []) by lia. rewrite (znth_map _ _ c 0 0) by lia. reflexivity.
Qed.

Lemma concat_tswap i j t : concat (tswap i j t) = map (swp i j) (concat t).
Proof. unfold tswap. rewrite concat_map. reflexivity. Qed.

Lemma swp_inv i j v : swp i j (swp i j v) = v.
Proof. unfold swp. zcases. Qed.

Lemma tswap_inv i j t : tswap i j (tswap i j t) = t.
Proof.
  unfold tswap. rewrite map_map. rewrite <- (map_id t) at 2. apply map_ext. intros rw. rewrite map_map.
  rewrite <- (map_id rw) at 2. apply map_ext. intros. apply swp_inv.
Qed.

Lemma vat2_set t r c x : cell (shp t) r c ->
  (row1 <- vat t r ;; row1' <- vat_set row1 c x ;; vat_set t r row1') = Ret (zupd t r (zupd (znth t r []) c x)).
Proof.
  intros Hc. pose proof (cell_rows _ _ _ Hc) as Hr. rewrite zlen_shp in Hr. apply cell_iff in Hc. rewrite row_shp in Hc.
  rewrite (vat_ok t r []) by lia. cbn [bind]. rewrite vat_set_ok by lia. cbn [bind]. apply vat_set_ok. lia.
Qed.

Lemma shp_set t r c x : cell (shp t) r c -> shp (zupd t r (zupd (znth t r []) c x)) = shp t.
Proof.
  intros Hc. pose proof (cell_rows _ _ _ Hc) as Hr. rewrite zlen_shp in Hr. apply cell_iff in Hc. rewrite row_shp in Hc.
  unfold shp. rewrite map_zupd, zlen_zupd by lia. fold (shp t).
  apply list_ext with (d := 0); [rewrite zlen_zupd by (rewrite zlen_shp; lia); reflexivity|].
  intros j Hj. rewrite zlen_zupd in Hj by (rewrite zlen_shp; lia). rewrite znth_zupd by (rewrite ?zlen_shp in *; lia).
  destruct (Z.eqb_spec j r); subst; [|reflexivity]. rewrite <- row_znth, row_shp. reflexivity.
Qed.

Lemma entry_set t r c x i d : cell (shp t) r c -> 0 <= i -> 0 <= d ->
  entry (zupd t r (zupd (znth t r []) c x)) i d = if (i =? r) && (d =? c) then x else entry t i d.
Proof.
  intros Hc Hi Hd. pose proof (cell_rows _ _ _ Hc) as Hr. rewrite zlen_shp in Hr. apply cell_iff in Hc. rewrite row_shp in Hc.
  rewrite !entry_znth. rewrite znth_zupd by lia. destruct (Z.eqb_spec i r); cbn [andb]; [|reflexivity]. subst.
  rewrite znth_zupd by lia. destruct (Z.eqb_spec d c); reflexivity.
Qed.

Lemma apply_transp_ok t i j r1 c1 r2 c2 : NoDup (concat t) -> cell (shp t) r1 c1 -> cell (shp t) r2 c2 ->
  entry t r1 c1 = i -> entry t r2 c2 = j ->
  yt_apply_transp t i j = Ret (tswap i j t, (c2 - r2) - (c1 - r1)).
Proof.
  intros N H1 H2 E1 E2. unfold yt_apply_transp. rewrite <- E1 at 1. rewrite yt_index_ok by auto. rewrite <- E2 at 1. rewrite yt_index_ok by auto.
  set (t1 := zupd t r1 (zupd (znth t r1 []) c1 j)). assert (shp t1 = shp t) as S1 by (apply shp_set; auto).
  set (t2 := zupd t1 r2 (zupd (znth t1 r2 []) c2 i)). assert (shp t2 = shp t) as S2 by (unfold t2; rewrite shp_set; congruence).
  assert (forall B (f : _ -> outcome B), (row1 <- vat t r1 ;; row1' <- vat_set row1 c1 j ;; t <- vat_set t r1 row1' ;; f t) = f t1) as F1.
  { intros B f. pose proof (vat2_set t r1 c1 j H1) as V. destruct (vat t r1); cbn [bind] in *; try discriminate.
    destruct (vat_set a c1 j); cbn [bind] in *; try discriminate. rewrite V. reflexivity. }
  rewrite F1.
  assert (forall B (f : _ -> outcome B), (row1 <- vat t1 r2 ;; row1' <- vat_set row1 c2 i ;; t <- vat_set t1 r2 row1' ;; f t) = f t2) as F2.
  { intros B f. pose proof (vat2_set t1 r2 c2 i ltac:(rewrite S1; auto)) as V. destruct (vat t1 r2); cbn [bind] in *; try discriminate.
    destruct (vat_set a c2 i); cbn [bind] in *; try discriminate. rewrite V. reflexivity. }
  rewrite F2. f_equal. f_equal. apply tab_ext; [rewrite S2, shp_tswap; reflexivity|].
  intros r c Hc. rewrite S2 in Hc. rewrite entry_tswap by auto. pose proof (proj1 (cell_iff _ _ _) Hc) as (? & ?).
  unfold t2. rewrite entry_set by (try rewrite S1; auto; lia). unfold t1 at 1. rewrite entry_set by (auto; lia).
  unfold swp. destruct (Z.eqb_spec (entry t r c) i) as [Q|Q].
  - destruct (entry_inj t r c r1 c1 N Hc H1 ltac:(congruence)) as (-> & ->). rewrite !Z.eqb_refl. cbn [andb].
    destruct (Z.eqb_spec r1 r2), (Z.eqb_spec c1 c2); cbn [andb]; auto. subst. congruence.
  - destruct (Z.eqb_spec (entry t r c) j) as [Q'|Q'].
    + destruct (entry_inj t r c r2 c2 N Hc H2 ltac:(congruence)) as (-> & ->). rewrite !Z.eqb_refl. reflexivity.
    + assert (((r =? r2) && (c =? c2))%bool = false) as ->.
      { destruct (Z.eqb_spec r r2), (Z.eqb_spec c c2); cbn; auto. subst. congruence. }
      assert (((r =? r1) && (c =? c1))%bool = false) as ->; [|reflexivity].
      destruct (Z.eqb_spec r r1), (Z.eqb_spec c c1); cbn; auto. subst. congruence.
Qed.

Lemma NoDup_tswap i j t : NoDup (concat t) -> NoDup (concat (tswap i j t)).
Proof.
  intros N. rewrite concat_tswap. apply FinFun.Injective_map_NoDup; auto. intros x y E.
  rewrite <- (swp_inv i j x), <- (swp_inv i j y), E. reflexivity.
Qed.

Lemma apply_transp_spec t i j : NoDup (concat t) -> In i (concat t) -> In j (concat t) ->
  exists t' d, yt_apply_transp t i j = Ret (t', d) /\ shp t' = shp t /\
    (forall r c, cell (shp t) r c ->
       (entry t r c = i -> entry t' r c = j) /\ (entry t r c = j -> entry t' r c = i) /\
       (entry t r c <> i -> entry t r c <> j -> entry t' r c = entry t r c)) /\
    (forall r1 c1 r2 c2, cell (shp t) r1 c1 -> cell (shp t) r2 c2 -> entry t r1 c1 = i -> entry t r2 c2 = j -> d = (c2 - r2) - (c1 - r1)) /\
    yt_apply_transp t' i j = Ret (t, - d).
Proof.
  intros N I1 I2. apply In_concat_cell in I1 as (r1 & c1 & H1 & E1). apply In_concat_cell in I2 as (r2 & c2 & H2 & E2).
  exists (tswap i j t), ((c2 - r2) - (c1 - r1)). split; [apply apply_transp_ok; auto|]. split; [apply shp_tswap|]. split; [|split].
  - intros r c Hc. rewrite entry_tswap by auto. unfold swp. destruct (Z.eqb_spec (entry t r c) i), (Z.eqb_spec (entry t r c) j); repeat split; intros; congruence.
  - intros r1' c1' r2' c2' H1' H2' E1' E2'. destruct (entry_inj t r1 c1 r1' c1' N H1 H1' ltac:(congruence)) as (-> & ->).
    destruct (entry_inj t r2 c2 r2' c2' N H2 H2' ltac:(congruence)) as (-> & ->). reflexivity.
  - rewrite (apply_transp_ok (tswap i j t) i j r2 c2 r1 c1).
    + rewrite tswap_inv. f_equal. f_equal. lia.
    + apply NoDup_tswap; auto.
    + rewrite shp_tswap; auto.
    + rewrite shp_tswap; auto.
    + rewrite entry_tswap, E2 by auto. unfold swp. rewrite Z.eqb_refl. destruct (Z.eqb_spec j i); auto.
    + rewrite entry_tswap, E1 by auto. unfold swp. rewrite Z.eqb_refl. reflexivity.
Qed.

(* entries grow with the distance *)
Lemma cell_down n l r c r' c' : is_part n l -> cell l r' c' -> 0 <= r <= r' -> 0 <= c <= c' -> cell l r c.
Proof. intros Hl Hc Hr Hc'. apply cell_iff in Hc. apply cell_iff. pose proof (is_part_anti n l r r' Hl Hr). lia. Qed.

Lemma standard_mono_row n lambda t r c d : is_part n lambda -> standard lambda t -> 0 <= c -> cell lambda r (c + Z.of_nat d) ->
  entry t r c + Z.of_nat d <= entry t r (c + Z.of_nat d).
Proof.
  intros Hl St Hc Hcell. pose proof (cell_rows _ _ _ Hcell). induction d as [|d IH]; [rewrite !Z.add_0_r; lia|].
  assert (cell lambda r (c + Z.of_nat d)) as Cd by (apply (cell_down n lambda r _ r (c + Z.of_nat (S d))); auto; lia).
  specialize (IH Cd). replace (c + Z.of_nat (S d)) with (c + Z.of_nat d + 1) in * by lia.
  destruct St as (_ & _ & Hrow & _). specialize (Hrow _ _ Cd Hcell). lia.
Qed.

Lemma standard_mono_col n lambda t r c d : is_part n lambda -> standard lambda t -> 0 <= r -> cell lambda (r + Z.of_nat d) c ->
  entry t r c + Z.of_nat d <= entry t (r + Z.of_nat d) c.
Proof.
  intros Hl St Hr Hcell. pose proof (proj1 (cell_iff _ _ _) Hcell). induction d as [|d IH]; [rewrite !Z.add_0_r; lia|].
  assert (cell lambda (r + Z.of_nat d) c) as Cd by (apply (cell_down n lambda _ c (r + Z.of_nat (S d)) c); auto; lia).
  specialize (IH Cd ltac:(apply cell_iff; apply Cd)). replace (r + Z.of_nat (S d)) with (r + Z.of_nat d + 1) in * by lia.
  destruct St as (_ & _ & _ & Hcol). specialize (Hcol _ _ Cd Hcell). lia.
Qed.

Lemma standard_mono n lambda t r c r' c' : is_part n lambda -> standard lambda t -> cell lambda r' c' -> 0 <= r <= r' -> 0 <= c <= c' ->
  entry t r c + (r' - r) + (c' - c) <= entry t r' c'.
Proof.
  intros Hl St Hc Hr Hc'. pose proof (standard_mono_row n lambda t r' c (Z.to_nat (c' - c)) Hl St) as A.
  replace (c + Z.of_nat (Z.to_nat (c' - c))) with c' in A by lia.
  assert (cell lambda r' c) as C1 by (apply (cell_down n lambda r' c r' c'); auto; lia).
  pose proof (standard_mono_col n lambda t r c (Z.to_nat (r' - r)) Hl St) as B.
  replace (r + Z.of_nat (Z.to_nat (r' - r))) with r' in B by lia. specialize (A ltac:(lia) Hc). specialize (B ltac:(lia) C1). lia.
Qed.

(* i and i+1 stand next to each other in a row, in a column, or at distance at least two *)
Lemma consecutive_positions n lambda t r1 c1 r2 c2 : is_part n lambda -> standard lambda t -> cell lambda r1 c1 -> cell lambda r2 c2 ->
  entry t r2 c2 = entry t r1 c1 + 1 ->
  (r2 = r1 /\ c2 = c1 + 1) \/ (r2 = r1 + 1 /\ c2 = c1) \/ (r1 < r2 /\ c2 < c1) \/ (r2 < r1 /\ c1 < c2).
Proof.
  intros Hl St H1 H2 E. pose proof (proj1 (cell_iff _ _ _) H1). pose proof (proj1 (cell_iff _ _ _) H2).
  destruct (Z_le_dec r1 r2), (Z_le_dec c1 c2).
  - pose proof (standard_mono n lambda t r1 c1 r2 c2 Hl St H2). 
    assert (r1 <> r2 \/ c1 <> c2) by (destruct (Z.eq_dec r1 r2), (Z.eq_dec c1 c2); auto; subst; lia). lia.
  - destruct (Z.eq_dec r1 r2).
    + subst. pose proof (standard_mono n lambda t r2 c2 r2 c1 Hl St H1). lia.
    + lia.
  - destruct (Z.eq_dec c1 c2).
    + subst. pose proof (standard_mono n lambda t r2 c2 r1 c2 Hl St H1). lia.
    + lia.
  - pose proof (standard_mono n lambda t r2 c2 r1 c1 Hl St H1). lia.
Qed.

Lemma swp_lt i x y : x < y -> ~ (x = i /\ y = i + 1) -> swp i (i + 1) x < swp i (i + 1) y.
Proof. unfold swp. intros. zcases. Qed.

Lemma is_perm_swp n i j l : 1 <= i <= n -> 1 <= j <= n -> is_perm n l -> is_perm n (map (swp i j) l).
Proof.
  intros Hi Hj (A & B & C). split; [rewrite map_length; auto|]. split.
  - intros v Hv. apply in_map_iff in Hv as (u & <- & Hu). specialize (B u Hu). unfold swp. zcases.
  - apply FinFun.Injective_map_NoDup; auto. intros x y E. rewrite <- (swp_inv i j x), <- (swp_inv i j y), E. reflexivity.
Qed.

Lemma apply_transp_standard n lambda t i : is_part n lambda -> standard lambda t -> 1 <= i -> i + 1 <= n ->
  exists t' d, yt_apply_transp t i (i + 1) = Ret (t', d) /\ d <> 0 /\ (standard lambda t' <-> d <> 1 /\ d <> -1).
Proof.
  intros Hl St Hi Hn. pose proof (is_part_sum _ _ Hl) as Hsum. pose proof (proj1 (has_shape_shp _ _) (proj1 St)) as Hs.
  assert (is_perm n (concat t)) as P by (rewrite <- Hsum; apply St). assert (NoDup (concat t)) as N by apply P.
  assert (In i (concat t)) as I1 by (eapply is_perm_onto; eauto; lia). assert (In (i + 1) (concat t)) as I2 by (eapply is_perm_onto; eauto; lia).
  apply In_concat_cell in I1 as (r1 & c1 & H1 & E1). apply In_concat_cell in I2 as (r2 & c2 & H2 & E2).
  exists (tswap i (i + 1) t), ((c2 - r2) - (c1 - r1)). split; [apply apply_transp_ok; auto|]. rewrite Hs in *.
  pose proof (consecutive_positions n lambda t r1 c1 r2 c2 Hl St H1 H2 ltac:(lia)) as CP. split; [lia|]. split.
  - intros (_ & _ & Hrow & Hcol). destruct CP as [(-> & ->)|[(-> & ->)|CP]]; [exfalso|exfalso|lia].
    + specialize (Hrow _ _ H1 H2). rewrite !entry_tswap, E1, E2 in Hrow by (rewrite Hs; auto). unfold swp in Hrow.
      revert Hrow. zcases.
    + specialize (Hcol _ _ H1 H2). rewrite !entry_tswap, E1, E2 in Hcol by (rewrite Hs; auto). unfold swp in Hcol.
      revert Hcol. zcases.
  - intros (D1 & D2). split; [rewrite has_shape_shp, shp_tswap; auto|]. split; [|split].
    + rewrite concat_tswap, Hsum. apply is_perm_swp; auto; lia.
    + intros r c C1 C2. rewrite !entry_tswap by (rewrite Hs; auto). apply swp_lt; [apply St; auto|]. intros (Q1 & Q2).
      destruct (entry_inj t r c r1 c1 N) as (-> & ->); try rewrite Hs; auto; try congruence.
      destruct (entry_inj t r1 (c1 + 1) r2 c2 N) as (-> & <-); try rewrite Hs; auto; try congruence. lia.
    + intros r c C1 C2. rewrite !entry_tswap by (rewrite Hs; auto). apply swp_lt; [apply St; auto|]. intros (Q1 & Q2).
      destruct (entry_inj t r c r1 c1 N) as (-> & ->); try rewrite Hs; auto; try congruence.
      destruct (entry_inj t (r1 + 1) c1 r2 c2 N) as (<- & <-); try rewrite Hs; auto; try congruence. lia.
Qed.

(* ---- C22 ---- *)

Lemma yt_remove_ok t r : 0 <= r < zlen t -> 2 <= zlen (znth t r []) -> yt_remove t r = Ret (zupd t r (removelast (znth t r []))).
Proof.
  intros Hr H. unfold yt_remove. rewrite (vat_ok t r []) by lia. cbn [bind]. destruct (Z.gtb_spec (zlen (znth t r [])) 1); [|lia].
  apply vat_set_ok. lia.
Qed.

Lemma removelast_snoc {A} (l : list A) x : removelast (l ++ [x]) = l.
Proof. apply removelast_last. Qed.

Lemma zupd_zupd {A} (l : list A) i x y : 0 <= i < zlen l -> zupd (zupd l i x) i y = zupd l i y.
Proof.
  intros H. destruct l as [|d l']; [unfold zlen in H; cbn in H; lia|]. apply list_ext with (d := d); [rewrite !zlen_zupd by (rewrite ?zlen_zupd; lia); reflexivity|].
  intros j Hj. rewrite !zlen_zupd in Hj by (rewrite ?zlen_zupd; lia). rewrite !znth_zupd by (rewrite ?zlen_zupd; lia). destruct (j =? i); reflexivity.
Qed.

Lemma zupd_same {A} (l : list A) i d : 0 <= i < zlen l -> zupd l i (znth l i d) = l.
Proof.
  intros H. apply list_ext with (d := d); [rewrite !zlen_zupd by lia; reflexivity|].
  intros j Hj. rewrite zlen_zupd in Hj by lia. rewrite znth_zupd by lia. destruct (Z.eqb_spec j i); subst; reflexivity.
Qed.

Lemma add_remove t r j : (forall rw, In rw t -> rw <> []) -> 0 <= r <= zlen t ->
  exists t', yt_add t r j = Ret t' /\ yt_remove t' r = Ret t.
Proof.
  intros Hne Hr. exists (yadd t r j). split; [apply yt_add_ok; auto|]. unfold yadd. destruct (Z.ltb_spec r (zlen t)).
  - assert (1 <= zlen (znth t r [])) as L.
    { pose proof (Hne _ (znth_In t r [] ltac:(lia))) as K. destruct (znth t r []); [congruence|]. rewrite zlen_cons. pose proof (zlen_nonneg l). lia. }
    rewrite yt_remove_ok.
    + rewrite znth_zupd by lia. rewrite Z.eqb_refl, removelast_snoc. rewrite zupd_zupd by lia. rewrite zupd_same by lia. reflexivity.
    + rewrite zlen_zupd by lia. lia.
    + rewrite znth_zupd by lia. rewrite Z.eqb_refl, zlen_app. change (zlen [j]) with 1. lia.
  - assert (r = zlen t) by lia. subst r. unfold yt_remove. rewrite (vat_ok _ _ []) by (rewrite zlen_app; change (zlen [[j]]) with 1; lia). cbn [bind].
    rewrite znth_app, Z.ltb_irrefl, Z.sub_diag by lia. change (zlen (znth [[j]] 0 [])) with 1. cbn. rewrite removelast_snoc. reflexivity.
Qed.

(* what remove does when the row has length at least two, or is the last row with one entry *)
Lemma remove_last_entry t r : 0 <= r < zlen t -> (2 <= zlen (znth t r []) \/ (zlen (znth t r []) = 1 /\ r = zlen t - 1)) ->
  exists t' v, yt_remove t r = Ret t' /\ yt_add t' r v = Ret t.
Proof.
  intros Hr [H|(H & ->)].
  - exists (zupd t r (removelast (znth t r []))), (znth (znth t r []) (zlen (znth t r []) - 1) 0). split; [apply yt_remove_ok; auto|].
    rewrite yt_add_ok by (rewrite zlen_zupd by lia; lia). unfold yadd. rewrite zlen_zupd by lia. destruct (Z.ltb_spec r (zlen t)); [|lia].
    rewrite znth_zupd by lia. rewrite Z.eqb_refl, removelast_last_z by lia. rewrite zupd_zupd, zupd_same by lia. reflexivity.
  - destruct (znth t (zlen t - 1) []) as [|v [|]] eqn:E; unfold zlen in H; cbn in H; try lia. exists (removelast t), v. split.
    + unfold yt_remove. rewrite (vat_ok _ _ []) by lia. cbn [bind]. rewrite E. reflexivity.
    + rewrite yt_add_ok by (rewrite zlen_removelast by lia; lia). unfold yadd. rewrite zlen_removelast by lia. rewrite Z.ltb_irrefl.
      rewrite <- E. rewrite removelast_last_z by lia. reflexivity.
Qed.

(* partitions by computation *)
Fixpoint decb (l : list Z) : bool :=
  match l with
  | [] => true
  | x :: l' => (1 <=? x) && forallb (fun y => y <=? x) l' && decb l'
  end.

Lemma decb_part n l : (decb l && (zsum l =? n))%bool = true -> is_part n l.
Proof.
  rewrite andb_true_iff. intros (D & S). split; [|split; [|lia]].
  - induction l as [|x l IH]; cbn in *; [intros y []|]. rewrite !andb_true_iff in D. destruct D as ((D1 & D2) & D3).
    intros y [->|Hy]; [lia|]. clear S. revert y Hy. clear IH D1 D2. induction l as [|z l IH]; [intros y []|].
    cbn in D3. rewrite !andb_true_iff in D3. destruct D3 as ((E1 & E2) & E3). intros y [->|Hy]; [lia|auto].
  - clear S. induction l as [|x l IH]; constructor; cbn in D; rewrite !andb_true_iff in D; destruct D as ((D1 & D2) & D3); auto.
    rewrite Forall_forall. intros y Hy. rewrite forallb_forall in D2. specialize (D2 y Hy). lia.
Qed.

Lemma remove_interior_fails : exists t r t', standard [1;1;1] t /\ yt_remove t r = Ret t' /\ 0 <= r < 2 /\
  nth (Z.to_nat r) t' [] = nth (Z.to_nat r) t [] /\ Z.of_nat (length t') = 2.
Proof.
  exists [[1];[2];[3]], 1, [[1];[2]].
  assert (In [[1];[2];[3]] [[[1];[2];[3]]]) as I by (left; reflexivity).
  destruct (tableaux_complete 3 [1;1;1]) as (L & E & _ & H & _).
  - apply decb_part. reflexivity.
  - discriminate.
  - apply Ret_inj in E. subst L. split; [apply H; exact I|]. repeat split; try reflexivity; lia.
Qed.
