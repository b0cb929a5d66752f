(* Property C84: batched vectors.  Each member of a batch is treated like a vector of its own. *)
From Coq Require Import ZArith List Bool Lia Reals Lra.
From Verif Require Import Model_Base Model_Perm Model_Part Model_Comb Model_Tab Model_Irrep Model_Type Model_FFT Model_Vec Model_Char Model_CG Model_CGvec Model_VecB Model_VecBIn.
From Verif Require Import Spec_Perm Spec_Part Spec_Tab Spec_Rep Spec_Four Spec_Type Spec_FFT Spec_Vec Spec_CG Spec_CGvec Spec_VecB.
From Verif Require Import Proof_Perm Proof_Part Proof_TabProps Proof_Type Proof_VecB2 Proof_VecB3 Proof_VecBIn.
Import ListNotations.
Open Scope Z_scope.

(* the product of two batches exists after every history, and its member k is the product of the members k *)
Theorem C84_product_of_vectors : forall F n nb x y qs, 1 <= n -> batch n nb x -> batch n nb y -> x <> [] -> y <> [] -> Forall legal_bvq qs ->
  exists aa st R, bvrun F (qs ++ [BVec x y]) cg0 = Ret (aa ++ [RVecB R], st) /\ size_is nb R /\
  forall k, 0 <= k < nb -> exists r, product_is F (slices k x) (slices k y) r /\ Forall2 same_part (slices k R) r.
Proof. exact batched_vectors. Qed.
Print Assumptions C84_product_of_vectors.

Theorem C84_product_of_parts : forall F n nb x y qs, 1 <= n -> batch n nb [x] -> batch n nb [y] -> Forall legal_bvq qs ->
  exists aa st R, bvrun F (qs ++ [BPart x y]) cg0 = Ret (aa ++ [RVecB R], st) /\ size_is nb R /\
  forall k, 0 <= k < nb -> exists r, product_is F [slice k x] [slice k y] r /\ Forall2 same_part (slices k R) r.
Proof. exact batched_parts. Qed.
Print Assumptions C84_product_of_parts.

(* a permutation acts on every member of the batch *)
Theorem C84_action : forall n nb p V, 1 <= n -> is_perm n p -> batch_any n nb V -> exists V', vb_apply p V = Ret V' /\ size_is nb V' /\
  forall k, 0 <= k < nb -> exists v', sv_apply p (slices k V) = Ret v' /\ Forall2 same_part (slices k V') v'.
Proof. exact batched_action. Qed.
Print Assumptions C84_action.

Theorem C84_action_of_a_transposition : forall n nb a b V, 1 <= n -> 1 <= a <= n -> 1 <= b <= n -> batch_any n nb V ->
  exists c V', p_transposition n a b = Ret c /\ vb_apply_transp (mkTransp a b) V = Ret V' /\ size_is nb V' /\
  forall k, 0 <= k < nb -> exists v', sv_apply c (slices k V) = Ret v' /\ Forall2 same_part (slices k V') v'.
Proof. exact batched_action_transp. Qed.
Print Assumptions C84_action_of_a_transposition.

Theorem C84_action_of_a_cycle : forall n nb a b P, 1 <= n -> 1 <= a <= n -> 1 <= b <= n -> batch_any n nb [P] ->
  exists c P', p_contiguous_cycle n a b = Ret c /\ pb_apply_cycle (mkCyc a b) P = Ret P' /\ size_is nb [P'] /\
  forall k, 0 <= k < nb -> exists v', sv_apply c (slices k [P]) = Ret v' /\ Forall2 same_part (slices k [P']) v'.
Proof. exact batched_action_cycle. Qed.
Print Assumptions C84_action_of_a_cycle.

(* apply_inplace does not do to the batch what apply returns: it works on copies of the parts and leaves every batch as it
   was, for every permutation and every contiguous cycle *)
Theorem C84_inplace_leaves_all : forall n nb p V, 1 <= n -> is_perm n p -> batch_any n nb V -> vb_apply_inplace p V = Ret V.
Proof. exact inplace_nothing. Qed.
Print Assumptions C84_inplace_leaves_all.

Theorem C84_inplace_cycle_leaves_all : forall n nb a b V, 1 <= n -> 1 <= a <= n -> 1 <= b <= n -> batch_any n nb V ->
  vb_apply_inplace_cycle (mkCyc a b) V = Ret V.
Proof. exact inplace_nothing_cycle. Qed.
Print Assumptions C84_inplace_cycle_leaves_all.

Theorem C84_inplace_refuted : ~ (forall n nb p V, 1 <= n -> is_perm n p -> batch_any n nb V -> vb_apply_inplace p V = vb_apply p V).
Proof.
  intros H. assert (is_perm 2 [2; 1]) as P by (apply (check_is_perm [2; 1]); reflexivity). pose proof (H 2 1 [2; 1] [sign_part] ltac:(lia) P sign_batch) as E.
  rewrite (inplace_nothing 2 1 [2; 1] [sign_part] ltac:(lia) P sign_batch) in E. destruct sign_moves as (V' & F & D). rewrite F in E. injection E as E. apply D. auto.
Qed.
Print Assumptions C84_inplace_refuted.

(* a batch is restricted to S_(n-1) member by member, and has the type of each member *)
Theorem C84_restriction : forall n nb P, 2 <= n -> batch_any n nb [P] -> exists V, vb_down P = Ret V /\ size_is nb V /\
  forall k, 0 <= k < nb -> exists v, sv_down (slice k P) = Ret v /\ Forall2 same_part (slices k V) v.
Proof. exact batched_down. Qed.
Print Assumptions C84_restriction.

Theorem C84_type : forall nb V k, size_is nb V -> vb_type V = sv_type (slices k V).
Proof. exact batched_type. Qed.
Print Assumptions C84_type.

(* batches of different sizes are refused, in every state of the bank *)
Theorem C84_different_sizes : forall F b P Q x y, t_n0 (pb_t P) <> t_n0 (pb_t Q) ->
  bvrun F [BVec (P :: x) (Q :: y)] b = Abort /\ bvrun F [BPart P Q] b = Abort.
Proof. exact sizes_differ. Qed.
Print Assumptions C84_different_sizes.

(* so are batches some parts of which have another size than the others: whenever a product returns, in any state, all
   parts of both batches have one size *)
Theorem C84_one_size : forall F b x y r, bvrun F [BVec x y] b = Ret r -> exists nb, size_is nb x /\ size_is nb y.
Proof. exact one_size. Qed.
Print Assumptions C84_one_size.

(* the claim "a batched product exists whenever the product exists" is false: vectors without parts have a product,
   but a batch without parts has no size, and the batched product stops the program *)
Theorem C84_empty_vectors_refuted : forall F y, bvrun F [BVec [] y] cg0 = Abort /\ cvrun F [CVec [] []] cg0 = Ret ([RVec []], cg0).
Proof. exact batched_empty. Qed.
Print Assumptions C84_empty_vectors_refuted.

(* a batch of two vectors of S_3 with the parts [2,1] and [3] *)
Definition ex_ab : partb := mkPartb (mkIrrep 3 [2; 1] [[[1; 2]; [3]]; [[1; 3]; [2]]]) (mkTen 2 2 1 (fun k i _ => IZR (2 * k + i + 1))).
Definition ex_bb : partb := mkPartb (mkIrrep 3 [3] [[[1; 2; 3]]]) (mkTen 2 1 1 (fun k _ _ => IZR (5 - k))).
Example C84_example : batch 3 2 [ex_ab; ex_bb] /\ batch_any 3 2 [ex_ab; ex_bb] /\ Forall legal_bvq [BVec [ex_ab; ex_bb] [ex_bb; ex_ab]].
Proof.
  assert (forall v, v = [ex_ab; ex_bb] \/ v = [ex_bb; ex_ab] -> batch 3 2 v) as B.
  { intros v Hv. split; [lia|]. split; [intros P HP; destruct Hv as [-> | ->]; destruct HP as [<-|[<-|[]]]; reflexivity|]. intros k Hk. split.
    - destruct Hv as [-> | ->]; cbn; (apply NoDup_cons; [intros [H|[]]; discriminate|]); (apply NoDup_cons; [intros []|apply NoDup_nil]).
    - intros P HP. assert (P = slice k ex_ab \/ P = slice k ex_bb) as [-> | ->] by (destruct Hv as [-> | ->]; destruct HP as [<-|[<-|[]]]; auto); [exists [2; 1]|exists [3]]; (split; [apply decb_part; reflexivity|]); (split; [vm_compute; reflexivity|]); (split; [reflexivity|]); (split; [reflexivity|lia]). }
  split; [auto|]. split.
  - destruct (B [ex_ab; ex_bb] (or_introl eq_refl)) as (H1 & H2 & H3). split; [auto|]. split; [auto|]. intros k P Hk HP. destruct (H3 k Hk) as (_ & H4). destruct (H4 (slice k P)) as (l & Pl & Po); [apply in_map; auto|]. exists l, 1. auto.
  - apply Forall_cons; [|apply Forall_nil]. exists 3, 2. split; [lia|]. split; [auto|]. split; [auto|]. split; discriminate.
Qed.
(* member 1 of the restriction of the part [2,1] *)
Example C84_example_restriction : exists V, vb_down ex_ab = Ret V /\ map (fun P => (io_lambda (pb_irr P), t_n0 (pb_t P))) V = [([2], 2); ([1; 1], 2)] /\ map (fun P => t_at (pb_t P) 1 0 0) V = [(0 + 3)%R; (0 + 4)%R].
Proof. eexists. split; [reflexivity|]. split; reflexivity. Qed.
