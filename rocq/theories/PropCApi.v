(** * Property C42: the C interface. *)
From Coq Require Import List Arith Lia Bool ZArith.
From Verif Require Import Base Scalar Spec CSModel CSSpec PrecModel PrecSpec BuilderModel BuilderSpec CApiModel CApiSpec CApiProofs CApiProofs2 PropCS PropPrec PropBuilder.
Import ListNotations.

(** ** NULL handles: the documented status or number, and nothing changes. *)
Theorem C42_null : forall O Par fact to_size junk (w : World O),
  let ex := exec O Par fact to_size junk w in
  (forall n p i v, ex (CWrapMatrix None n p i v) = Some (w, OStatus NULL_OBJ None)) /\
  (forall A B par, ex (CSetup None A B par) = Some (w, OStatus NULL_OBJ None)) /\
  (forall A, ex (CUpdate None A) = Some (w, OStatus NULL_OBJ None)) /\
  (forall B par, ex (CRefactorize None B par) = Some (w, OStatus NULL_OBJ None)) /\
  (forall op b nirs rank x, ex (CApply None op b nirs rank x) = Some (w, OStatus NULL_OBJ None)) /\
  (forall b x, ex (CSolve None b x) = Some (w, OStatus NULL_OBJ None)) /\
  ex (CDestroyMatrix None) = Some (w, OStatus SUCCESS None) /\
  ex (CDestroy None) = Some (w, OStatus SUCCESS None) /\
  ex (CMatrixSize None) = Some (w, ONum 0) /\ ex (CMatrixNnz None) = Some (w, ONum 0) /\
  ex (CNnz None) = Some (w, ONum 0) /\ ex (CLevels None) = Some (w, ONum 0) /\
  ex (CSchurSize None) = Some (w, ONum 0) /\ ex (CSchurRank None) = Some (w, ONum 0).
Proof. intros. repeat split; reflexivity. Qed.
Print Assumptions C42_null.

(** ** Every legal history of calls, on any number of matrices and preconditioners,
    produces the outputs of the abstract interface: no buffers, no interference, and
    never undefined behaviour.  Partial: the factorization is an oracle, the bounded
    refinement ([betas]) and the file readers are not modelled. *)
Theorem C42_history_partial : forall O Par fact to_size (h : list ((nat -> T O) * call O Par)),
  calls_good O Par fact to_size (aw0 O) h ->
  exists w, crun O Par fact to_size (w0 O) h = Some (w, spec_crun O Par fact to_size (aw0 O) h).
Proof. intros. apply crun_ok; auto. apply WRel0. Qed.
Print Assumptions C42_history_partial.

(** ** Isolation: a call changes no preconditioner it does not name and no matrix but
    the one it destroys or wraps (any world, legal or not). *)
Theorem C42_isolated : forall O Par fact to_size junk (w : World O) (c : call O Par) w' v,
  exec O Par fact to_size junk w c = Some (w', v) ->
  (forall j, names_hif O Par c <> Some j -> j < length (whifs w) -> nth_error (whifs w') j = nth_error (whifs w) j) /\
  (forall j, changes_mat O Par c <> Some j -> j < length (wmats w) -> nth_error (wmats w') j = nth_error (wmats w) j).
Proof. intros O Par fact to_size junk w c w' v E. destruct (exec_frame O Par fact to_size junk w c w' v E) as (A & B & _). auto. Qed.
Print Assumptions C42_isolated.

(** ** The attached matrix is replaced by Setup and Update only: failing or
    succeeding, Refactorize, Apply and Solve keep it. *)
Theorem C42_matrix_kept : forall O Par fact to_size junk (w : World O) (c : call O Par) w' v k,
  exec O Par fact to_size junk w c = Some (w', v) ->
  (forall A B par, c <> CSetup (Some k) A B par) -> (forall A, c <> CUpdate (Some k) A) -> c <> CDestroy (Some k) ->
  k < length (whifs w) ->
  match nth_error (whifs w') k with Some (Some h) => Some (h_A h) | _ => None end =
  match nth_error (whifs w) k with Some (Some h) => Some (h_A h) | _ => None end.
Proof. exact exec_attached. Qed.
Print Assumptions C42_matrix_kept.

(** ** lhfGetErrorMsg returns a message exactly when a call reported an internal error
    since the previous lhfGetErrorMsg. *)
Theorem C42_error_message : forall O Par fact to_size (h : list ((nat -> T O) * call O Par)) w vs junk,
  crun O Par fact to_size (w0 O) h = Some (w, vs) ->
  exists w', exec O Par fact to_size junk w CGetErrorMsg = Some (w', OMsg (pending O Par false h vs)) /\
    exec O Par fact to_size junk w' CGetErrorMsg = Some (w', OMsg false).
Proof.
  intros O Par fact to_size h w vs junk E. apply crun_msg in E. cbn [exec]. unfold getErrorMsg.
  rewrite E. eexists; split; reflexivity.
Qed.
Print Assumptions C42_error_message.

(** ** lhfdSolve is lhfdApply with operation S, one iteration and the default rank
    (libhifir.h:694). *)
Theorem C42_solve_is_apply : forall O Par fact to_size junk (w : World O) h b x,
  exec O Par fact to_size junk w (CSolve h b x) =
  exec O Par fact to_size junk w (CApply h OP_S b 1 DEFAULT_RANK x).
Proof. intros. destruct h; reflexivity. Qed.
Print Assumptions C42_solve_is_apply.

(** ** A well formed matrix can be used for refinement: the products never fail and do
    not depend on what the output array held. *)
Theorem C42_matrix_usable : forall O (m : Mat O) tran, matrix_good O m -> mul_good O (mat_mul O m) tran (m_n m).
Proof. exact mat_mul_good. Qed.
Print Assumptions C42_matrix_usable.

(** ** Example data: factorization succeeds on matrices of size 3 only. *)
Definition zfact : Mat OZ -> option nat -> list (Prec OZ) * bool :=
  fun m _ => if m_n m =? 3 then ([zP1; zP2], true) else ([], false).
Definition zsize (z : Z) : nat := if (z <? 0)%Z then 1000 else Z.to_nat z.
Definition zp : option (list nat) := Some [0;1;2;3].
Definition zi : option (list nat) := Some [0;1;2].
Definition zv : option (list (T OZ)) := Some [1;2;3]%Z.
Definition zv2 : option (list (T OZ)) := Some [4;5]%Z.
Definition zcalls : list ((nat -> T OZ) * call OZ nat) :=
  [ (zj, CCreateMatrix true 3 zp zi zv);               (* matrix 0 *)
    (zj, CCreateMatrix false 2 (Some [0;1;2]) (Some [0;1]) zv2);   (* matrix 1 *)
    (zj, CCreate (Some 0) None None);                   (* handle 0 *)
    (zj, CCreate (Some 1) None (Some 7));               (* fails: no handle *)
    (zj, CGetErrorMsg);
    (zj, CCreate None None None);                       (* handle 2, empty *)
    (zj, @CSolve OZ nat (Some 2) [1;2;3]%Z [0;0;0]%Z);          (* fails *)
    (zj, @CSolve OZ nat (Some 0) [1;2;3]%Z [0;0;0;9]%Z);
    (zj, @CApply OZ nat (Some 0) OP_S [1;2;3]%Z 3 DEFAULT_RANK [0;0;0]%Z);
    (zj, @CApply OZ nat (Some 0) OP_MH [1;2;3]%Z 3 2 [0;0;0]%Z);
    (zj, CUpdate (Some 0) (Some 1));                    (* mismatched *)
    (zj, @CApply OZ nat (Some 0) OP_SH [1;2;3]%Z 2 DEFAULT_RANK [0;0;0]%Z);
    (zj, CMatrixNnz (Some 0)); (zj, CLevels (Some 0));
    (zj, CDestroy (Some 0)); (zj, CDestroyMatrix (Some 0)); (zj, CGetErrorMsg) ].
(* one call of an example, with the abstract world after it written out *)
Lemma good_step : forall O Par fact to_size w w' j (c : call O Par) h,
  call_good O Par fact w c -> fst (spec_call O Par fact to_size w c) = w' ->
  calls_good O Par fact to_size w' h -> calls_good O Par fact to_size w ((j, c) :: h).
Proof. intros. split; auto. now rewrite H0. Qed.
Definition zm0 : Mat OZ := mkMat true 3 zp zi zv.
Definition zm1 : Mat OZ := mkMat false 2 (Some [0;1;2]) (Some [0;1]) zv2.
Definition zh0 : AH OZ := mkAH [zP1; zP2] 3 (Some 0).
Definition zh0' : AH OZ := mkAH [zP1; zP2] 3 (Some 1).
Definition zh2 : AH OZ := mkAH [] 0 None.
Ltac world w := apply (good_step OZ nat) with (w' := w); [|vm_cast_no_check (eq_refl (A := AW OZ) w)|].
Example C42_hyps : calls_good OZ nat zfact zsize (aw0 OZ) zcalls.
Proof.
  assert (MG : matrix_good OZ zm0).
  { split; [unfold zm0; simpl; lia|]. eexists. split; [reflexivity|]. apply wfb_wf. vm_compute. reflexivity. }
  assert (FG : forall par, hier_good (fst (zfact zm0 par)) 3) by (intros; exact zhier_good).
  unfold zcalls, aw0.
  world (mkAW [Some zm0] [] false). { exact I. }
  world (mkAW [Some zm0; Some zm1] [] false). { exact I. }
  world (mkAW [Some zm0; Some zm1] [Some zh0] false).
  { split; [discriminate|split; [exact I|]]. exists zm0. split; [reflexivity|split; [discriminate|]]. apply FG. }
  world (mkAW [Some zm0; Some zm1] [Some zh0; None] true).
  { split; [discriminate|split; [exact I|]]. exists zm1. split; [reflexivity|split; [discriminate|]]. reflexivity. }
  world (mkAW [Some zm0; Some zm1] [Some zh0; None] false). { exact I. }
  world (mkAW [Some zm0; Some zm1] [Some zh0; None; Some zh2] false). { split; [exact I|split; exact I]. }
  world (mkAW [Some zm0; Some zm1] [Some zh0; None; Some zh2] true). { exists zh2. split; [reflexivity|]. left. reflexivity. }
  world (mkAW [Some zm0; Some zm1] [Some zh0; None; Some zh2] true). { exists zh0. split; [reflexivity|]. right. simpl. lia. }
  world (mkAW [Some zm0; Some zm1] [Some zh0; None; Some zh2] true).
  { exists zh0. split; [reflexivity|]. exists zm0. split; [reflexivity|]. intros _. split; [exact MG|]. simpl. lia. }
  world (mkAW [Some zm0; Some zm1] [Some zh0; None; Some zh2] true). { exists zh0. split; [reflexivity|]. right. simpl. lia. }
  world (mkAW [Some zm0; Some zm1] [Some zh0'; None; Some zh2] true). { split; discriminate. }
  world (mkAW [Some zm0; Some zm1] [Some zh0'; None; Some zh2] true).
  { exists zh0'. split; [reflexivity|]. exists zm1. split; [reflexivity|]. discriminate. }
  world (mkAW [Some zm0; Some zm1] [Some zh0'; None; Some zh2] true).
  { exists zm0, [0;1;2;3]. split; [reflexivity|]. split; [reflexivity|]. simpl. lia. }
  world (mkAW [Some zm0; Some zm1] [Some zh0'; None; Some zh2] true). { discriminate. }
  world (mkAW [Some zm0; Some zm1] [None; None; Some zh2] true). { discriminate. }
  world (mkAW [None; Some zm1] [None; None; Some zh2] true). { discriminate. }
  world (mkAW [None; Some zm1] [None; None; Some zh2] false). { exact I. }
  exact I.
Qed.
Example C42_run : match crun OZ nat zfact zsize (w0 OZ) zcalls with
  | Some (_, [OHandle (Some 0); OHandle (Some 1); OHandle (Some 0); OHandle None; OMsg true; OHandle (Some 2);
              OStatus HIFIR_ERROR None; OStatus SUCCESS (Some [_;_;_;9%Z]); OStatus SUCCESS (Some _); OStatus SUCCESS (Some _);
              OStatus MISMATCHED_SIZES None; OStatus MISMATCHED_SIZES None; ONum 3; ONum 3;
              OStatus SUCCESS None; OStatus SUCCESS None; OMsg true]) => True
  | _ => False end.
Proof. vm_compute. exact I. Qed.

(** ** What does not hold. *)

(** Failed calls replace the attached matrix: Update with a matrix of another size
    returns LHF_MISMATCHED_SIZES but keeps the new matrix, and a Setup whose
    factorization throws has already attached its matrix. *)
Theorem C42_failed_update_refuted : exists (h : list ((nat -> T OZ) * call OZ nat)) w w',
  calls_good OZ nat zfact zsize (aw0 OZ) h /\
  crun OZ nat zfact zsize (w0 OZ) (removelast h) = Some (w, [OHandle (Some 0); OHandle (Some 1); OHandle (Some 0)]) /\
  exec OZ nat zfact zsize zj w (CUpdate (Some 0) (Some 1)) = Some (w', OStatus MISMATCHED_SIZES None) /\
  option_map (option_map h_A) (nth_error (whifs w) 0) = Some (Some (Some 0)) /\
  option_map (option_map h_A) (nth_error (whifs w') 0) = Some (Some (Some 1)).
Proof.
  exists [ (zj, CCreateMatrix true 3 zp zi zv); (zj, CCreateMatrix false 2 (Some [0;1;2]) (Some [0;1]) zv2);
    (zj, CCreate (Some 0) None None); (zj, CUpdate (Some 0) (Some 1)) ].
  eexists. eexists. split.
  - split; [exact I|]. split; [exact I|].
    split. { split; [simpl; discriminate|split; [exact I|]]. eexists. split; [reflexivity|split; [simpl; discriminate|]]. exact zhier_good. }
    split. { split; simpl; discriminate. } exact I.
  - split; [reflexivity|]. split; [reflexivity|]. split; reflexivity.
Qed.
Print Assumptions C42_failed_update_refuted.

Theorem C42_failed_setup_refuted : exists (h : list ((nat -> T OZ) * call OZ nat)) w w',
  calls_good OZ nat zfact zsize (aw0 OZ) h /\
  crun OZ nat zfact zsize (w0 OZ) (removelast h) = Some (w, [OHandle (Some 0); OHandle (Some 1); OHandle (Some 0)]) /\
  exec OZ nat zfact zsize zj w (CSetup (Some 0) (Some 1) None None) = Some (w', OStatus HIFIR_ERROR None) /\
  option_map (option_map h_A) (nth_error (whifs w) 0) = Some (Some (Some 0)) /\
  option_map (option_map h_A) (nth_error (whifs w') 0) = Some (Some (Some 1)).
Proof.
  exists [ (zj, CCreateMatrix true 3 zp zi zv); (zj, CCreateMatrix false 2 (Some [0;1;2]) (Some [0;1]) zv2);
    (zj, CCreate (Some 0) None None); (zj, CSetup (Some 0) (Some 1) None None) ].
  eexists. eexists. split.
  - split; [exact I|]. split; [exact I|].
    split. { split; [simpl; discriminate|split; [exact I|]]. eexists. split; [reflexivity|split; [simpl; discriminate|]]. exact zhier_good. }
    split. { split; [simpl; discriminate|]. split; [simpl; discriminate|split; [exact I|]].
             eexists. split; [reflexivity|split; [simpl; discriminate|]]. reflexivity. } exact I.
  - split; [reflexivity|]. split; [reflexivity|]. split; reflexivity.
Qed.
Print Assumptions C42_failed_setup_refuted.

(** The rank argument is ignored without refinement and by the products, for all
    inputs ... *)
Theorem C42_rank_ignored : forall O Par fact to_size junk (w : World O) h op b nirs rank rank' x,
  (nirs <= 1)%Z \/ op = OP_M \/ op = OP_MH ->
  exec O Par fact to_size junk w (CApply h op b nirs rank x) = exec O Par fact to_size junk w (CApply h op b nirs rank' x).
Proof.
  intros O Par fact to_size junk w h op b nirs rank rank' x H. cbn [exec]. f_equal. unfold apply.
  destruct h as [k|]; auto. destruct (deref (whifs w) k); auto. cbn [bind].
  replace ((nirs <=? 1)%Z || is_mul op) with true; auto.
  destruct H as [H|[->| ->]]; simpl; rewrite ?orb_true_r; auto. apply Z.leb_le in H. now rewrite H.
Qed.
Print Assumptions C42_rank_ignored.

(** ... although the C++ object distinguishes the ranks. *)
Definition rdense : Dense OZ :=
  mkDense OZ (fun ld _ y => Ok (if ld =? 1 then firstn 1 y ++ repeat 0%Z (length y - 1) else y)) (fun _ _ y => Ok y) 2.
Definition zPr : Prec OZ := mkPrec 1 3
  (@mkCS OZ 1 1 [0;0] [] []) [1%Z] (@mkCS OZ 1 1 [0;0] [] [])
  (@mkCS OZ 1 2 [0;2] [0;1] [2;3]%Z) (@mkCS OZ 2 1 [0;1;1] [0] [5]%Z)
  [1;1;1]%Z [1;1;1]%Z [2;0;1] [1;2;0] [0;1;2] [0;1;2] (Some rdense) None.
Lemma zPr_good : hier_good [zPr] 3.
Proof.
  assert (W : forall A : CS OZ, wfb A = true -> wf A) by apply wfb_wf.
  assert (L1 : level_shape zPr) by (constructor; cbn; try lia; auto 6 using is_inv_dec).
  intros ld tran; split; (split; [exact L1|split; [reflexivity|]]); cbn; intros _ y Ly.
  - eexists; split; [reflexivity|]. destruct (ld =? 1); auto. destruct y; [discriminate|]. simpl. rewrite repeat_length. simpl in Ly. lia.
  - eexists; split; [reflexivity|exact Ly].
Qed.
Definition rfact : Mat OZ -> option nat -> list (Prec OZ) * bool := fun _ _ => ([zPr], true).
Definition rcalls : list ((nat -> T OZ) * call OZ nat) :=
  [ (zj, CCreateMatrix true 3 zp zi zv); (zj, CCreate (Some 0) None None);
    (zj, @CApply OZ nat (Some 0) OP_S [1;2;3]%Z 1 1 [0;0;0]%Z) ].
Definition rout : list (cout OZ) :=
  match crun OZ nat rfact zsize (w0 OZ) rcalls with Some (_, o) => o | None => [] end.
Definition rspec : list (T OZ) :=
  match spec_solve OZ (mkAbs [zPr] (Some (3, 3)) None None) false 1 [1;2;3]%Z with Ok o => o | _ => [] end.
Theorem C42_rank_refuted : exists w' out out',
  calls_good OZ nat rfact zsize (aw0 OZ) rcalls /\
  crun OZ nat rfact zsize (w0 OZ) rcalls =
    Some (w', [OHandle (Some 0); OHandle (Some 0); OStatus SUCCESS (Some out)]) /\
  option_map (option_map (fun h => hprecs (h_M h))) (nth_error (whifs w') 0) = Some (Some [zPr]) /\
  spec_solve OZ (mkAbs [zPr] (Some (3, 3)) None None) false 1 [1;2;3]%Z = Ok out' /\ out <> out'.
Proof.
  exists (match crun OZ nat rfact zsize (w0 OZ) rcalls with Some (w, _) => w | None => w0 OZ end).
  exists (match rout with [_; _; OStatus _ (Some x)] => x | _ => [] end), rspec. split.
  - unfold rcalls, aw0. world (mkAW [Some zm0] [] false). { exact I. }
    world (mkAW [Some zm0] [Some (mkAH [zPr] 3 (Some 0))] false).
    { split; [discriminate|split; [exact I|]]. exists zm0. split; [reflexivity|split; [discriminate|]]. exact zPr_good. }
    world (mkAW [Some zm0] [Some (mkAH [zPr] 3 (Some 0))] false).
    { exists (mkAH [zPr] 3 (Some 0)). split; [reflexivity|]. right. simpl. lia. }
    exact I.
  - split; [match goal with |- ?a = ?b => vm_cast_no_check (eq_refl b) end|].
    split; [match goal with |- ?a = ?b => vm_cast_no_check (eq_refl b) end|].
    split; [match goal with |- ?a = ?b => vm_cast_no_check (eq_refl b) end|].
    vm_compute. discriminate.
Qed.
Print Assumptions C42_rank_refuted.

(** The number of nonzeros of an empty matrix handle is undefined behaviour (a null
    array is indexed). *)
Theorem C42_empty_nnz_refuted :
  crun OZ nat zfact zsize (w0 OZ) [(zj, CCreateMatrix true 0 None None None); (zj, CMatrixNnz (Some 0))] = None.
Proof. reflexivity. Qed.
Print Assumptions C42_empty_nnz_refuted.

(** So is refinement with a 1-based matrix, although the factorization accepts such
    matrices (builder.hpp:317-326): the product indexes past the vector. *)
Theorem C42_one_based_refuted :
  let m := @CCreateMatrix OZ nat true 3 (Some [1;2;3;4]) (Some [1;2;3]) zv in
  crun OZ nat zfact zsize (w0 OZ) [(zj, m); (zj, CCreate (Some 0) None None);
    (zj, @CApply OZ nat (Some 0) OP_S [1;2;3]%Z 2 DEFAULT_RANK [0;0;0]%Z)] = None.
Proof. vm_compute. reflexivity. Qed.
Print Assumptions C42_one_based_refuted.
