(* Property C98: sessions.  Statements only: the proofs are in Proof_Session. *)
From Coq Require Import List Arith Lia.
From Verif Require Import Model_Base Model_Session Spec_Session Proof_Session.
Import ListNotations.

(* after the first Snob2_session, whatever sessions are made and destroyed, every bank is there, it is the one the first
   session made, and the memory in use is the six banks and one block for each session that is alive *)
Theorem C98_sessions : forall os, tidy [] 0 (New KSession :: os) -> exists w, srun (New KSession :: os) w_init = Ret w /\
  (forall b, use b w = Ret w) /\ (forall b, w_ptr w b = w_ptr (new_session w_init) b) /\ alive_count (w_heap w) = 6 + live_objs w.
Proof. exact sessions. Qed.
Print Assumptions C98_sessions.

(* the six banks of the first session are six different objects *)
Theorem C98_banks : forall b b', exists p p', w_ptr (new_session w_init) b = Some p /\ w_ptr (new_session w_init) b' = Some p' /\ (p = p' -> b = b').
Proof. intros [] []; eexists; eexists; split; try reflexivity; split; try reflexivity; intros E; first [reflexivity|discriminate E]. Qed.
Print Assumptions C98_banks.

(* a call before the first session reads through a null pointer *)
Theorem C98_before_refuted : forall b os, srun (Use b :: os) w_init = UB.
Proof. exact too_early. Qed.
Print Assumptions C98_before_refuted.

(* after a CombinatorialClasses object, no number of sessions sets up the other banks *)
Theorem C98_after_classes_refuted : forall os b, (forall o, In o os -> o = New KSession \/ o = New KCombi \/ o = Use BCombi \/ exists i, o = Destroy i) -> b <> BCombi ->
  srun (New KCombi :: os ++ [Use b]) w_init = UB.
Proof. exact combi_first. Qed.
Print Assumptions C98_after_classes_refuted.

(* after an SnClasses object, a session sets up only the bank of partitions *)
Theorem C98_after_sn_refuted : forall b, In b [BFft; BChar; BCg] -> srun [New KSn; New KSession; Use b] w_init = UB.
Proof. intros b [<-|[<-|[<-|[]]]]; reflexivity. Qed.
Print Assumptions C98_after_sn_refuted.

(* a second CombinatorialClasses or SnClasses object takes the banks away from the first, and from a session *)
Theorem C98_two_classes_refuted : forall k, k = KCombi \/ k = KSn -> let b := match k with KSn => BSn | _ => BCombi end in
  srun [New k; New k; Destroy 1; Use b] w_init = UB /\ srun [New k; New k; Destroy 1; Destroy 0] w_init = UB /\
  srun [New KSession; New k; Destroy 1; Use b] w_init = UB /\ srun [New k; Destroy 0; New k; Use b] w_init = UB.
Proof. intros k [-> | ->]; repeat split; reflexivity. Qed.
Print Assumptions C98_two_classes_refuted.

(* a session can be copied, and then it is freed twice *)
Theorem C98_copy_refuted : srun [New KSession; Copy 0; Destroy 1; Destroy 0] w_init = UB.
Proof. reflexivity. Qed.
Print Assumptions C98_copy_refuted.

(* without a session: each kind of object sets up its own banks, however many are made and in whatever order, and no other *)
Theorem C98_classes_alone : forall ks, Forall (fun k => k = KCombi \/ k = KSn) ks -> exists w, srun (map New ks) w_init = Ret w /\
  (In KCombi ks -> use BCombi w = Ret w) /\ (In KSn ks -> use BSn w = Ret w /\ use BRep w = Ret w) /\
  (~ In KCombi ks -> use BCombi w = UB) /\ (~ In KSn ks -> use BSn w = UB /\ use BRep w = UB) /\ (forall b, In b [BFft; BChar; BCg] -> use b w = UB).
Proof. exact classes_alone. Qed.
Print Assumptions C98_classes_alone.

Theorem C98_one_object : forall k, k <> KSession -> exists w, srun [New k; Destroy 0] w_init = Ret w /\ alive_count (w_heap w) = 0.
Proof. exact one_object. Qed.
Print Assumptions C98_one_object.

Example C98_example : tidy [] 0 [New KSession; Use BFft; New KSession; Destroy 0; Use BSn; Destroy 1; Use BCg; New KSession; Use BCombi] /\
  (exists w, srun [New KCombi; Use BCombi; Destroy 0] w_init = Ret w /\ alive_count (w_heap w) = 0).
Proof. split; [repeat (constructor; simpl; auto)|eexists; split; reflexivity]. Qed.
