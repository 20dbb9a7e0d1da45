(** * Property C53 in symmetric mode. *)
From Coq Require Import List Arith Lia Bool ZArith QArith Qcanon Qround.
From Verif Require Import Base Scalar Spec CSModel CSSpec CSProofs ConvModel ConvSpec ConvProofs Mag VecModel VecSpec PruneModel
  CroutModel PivotModel PivotSpec PropCS PrecModel PrecSpec FactorModel FactorSpec PropVec PropCrout PropFactor
  FactorProofs1 FactorProofs2 FactorProofs3 FactorProofs4 FactorProofs5 FillSpec FillProofs1 FillProofs2 FillProofs3 PropFill
  SymmModel SymmSpec SymmProofs3 SymmProofs4 SymmProofs5 PropSymm PropSymm2 FillProofs4.
Import ListNotations.
Close Scope Q_scope. Close Scope Qc_scope. Open Scope nat_scope.

(** ** C53, symmetric mode.  There is one factor, L; U is its conjugate transpose.  Whatever
    the numbers do (the input need not be symmetric): if the space factor [alpha_L], in every
    multiple the code uses, allows at most [BL z] entries for a reference size [z], then on
    every level every column of L and every row of U has at most [BL] of the reference size of
    the original row it stands for, so that L and U of all levels together hold at most twice
    the sum of the allowances.  The reference sizes are the rows of a row-major, the columns of
    a column-major input.  Missing: the same for [alpha_U], which is not used (refuted below);
    E, F and the Schur complements. *)
Theorem C53_symmetric_partial : forall O (G : Mag O) root shrink times bad big mdiv ceil_mul nth_el (opts : HOpts G)
    pre low go_dense mk_symm junkT junkN ji jv (rm : bool) (A : CS O) n BL,
  MagLaws G -> nth_element_ok (mle G) nth_el ->
  (forall k j, 1 <= k -> 1 <= low k j) -> (forall lvl, ceil_pos G ceil_mul (aL G times opts false lvl)) ->
  symm_pre_safe pre ->
  Forall (caps G ceil_mul BL) (multiples G times (h_alpha_L G opts)) ->
  valid A -> tight A -> psize A = n -> ssize A = n -> 1 <= n -> 1 <= nnz_of A ->
  let sz := if rm then ref_rows rm (low (nnz_of A) n) A n else ref_cols rm (low (nnz_of A) n) A n in
  forall precs,
  symm_factorize G root shrink times bad big mdiv ceil_mul nth_el opts pre low go_dense mk_symm junkT junkN ji jv rm A = Ok precs ->
  fill_within BL BL sz sz precs /\
  total_U precs <= list_sum (map BL sz) /\
  total_L precs <= list_sum (map BL sz).
Proof.
  intros O G root shrink times bad big mdiv ceil_mul nth_el opts pre low go_dense mk_symm junkT junkN ji jv rm A n BL
    ML NE HL CL HP KL VA TA PA SA Hn HZ sz precs E. rewrite <- PA in Hn.
  unfold symm_factorize in E.
  assert (SZE : sz = map (fun i => Nat.max (low (nnz_of A) n) (in_primary A i)) (seq 0 n)) by (unfold sz, ref_rows, ref_cols, nz_row, nz_col; destruct rm; reflexivity).
  clearbody sz. subst sz.
  set (sz := map (fun i => Nat.max (low (nnz_of A) n) (in_primary A i)) (seq 0 n)).
  assert (X : good BL BL sz sz precs /\ precs <> []).
  { eapply (symm_kernel_f G root shrink times bad big mdiv ceil_mul nth_el opts pre low go_dense mk_symm junkT junkN ji jv ML NE BL KL HP HL CL) with (rsz := sz); try exact E; auto; try lia.
    - unfold sz. now rewrite map_length, seq_length.
    - intros _ i Hi. unfold sz. rewrite PA in *. rewrite nth_map_seq by auto. reflexivity. }
  destruct X as (X & NN). split; [eapply good_within; eauto|]. destruct (good_total _ _ _ _ _ X) as (X1 & X2). auto.
Qed.
Print Assumptions C53_symmetric_partial.

(** ** A run in which the limit bites: a full symmetric matrix of size 6. *)
Definition ex_sfull : CS OQ := @mkCS OQ 6 6 [0;6;12;18;24;30;36] (concat (repeat [0;1;2;3;4;5] 6))
  (map (fun k => qz (if Z.eqb (k / 6) (k mod 6) then 30 + k else 1 + ((k / 6) + (k mod 6)) mod 5)%Z) (map Z.of_nat (seq 0 36))).
Definition ex_aopts (alpha_L alpha_U : Qc) : HOpts MQ :=
  mkHOpts MQ (qz 0) (qz 0) (qz 1000) (qz 1000) alpha_L alpha_U true true PivOff (qz 1).
Definition ex_sfill (alpha_L alpha_U : Qc) : list (nat * nat) :=
  match ey_factorize (fun _ _ _ => false) (ex_aopts alpha_L alpha_U) true ex_sfull with
  | Ok l => map (fun P => (length (indices (pL P)), length (indices (pU P)))) l
  | _ => []
  end.
Definition a24 : Qc := Qcdiv (qz 1) (qz 24).
Example C53_symmetric_hyps :
  Forall (caps MQ ceilQ ex_cap) (multiples MQ ex_times (h_alpha_L MQ (ex_aopts a24 (qz 100)))) /\
  (forall lvl, ceil_pos MQ ceilQ (aL MQ ex_times (ex_aopts a24 (qz 100)) false lvl)) /\
  valid ex_sfull /\ tight ex_sfull /\ nnz_of ex_sfull = 36 /\ ex_cap 6 = 2 /\
  list_sum (map ex_cap (ref_rows true (Nat.max 1 (ex_low 36 6)) ex_sfull 6)) = 12.
Proof.
  destruct C53_hyps as (H1 & _ & _ & _ & _ & H6 & _). split; [exact H1|]. split; [|split; [|split; [|split; [|split]]]]; try reflexivity.
  - intros lvl H k Hk. destruct C49_hyps as (_ & _ & _ & X). apply X; auto.
  - split; [apply wfb_wf; reflexivity|apply sortedb_sorted; reflexivity].
  - apply tightb_tight. reflexivity.
Qed.
Example C53_symmetric_run : ex_sfill (qz 100) (qz 100) = [(15, 15)] /\ ex_sfill a24 (qz 100) = [(5, 5)].
Proof. vm_compute. auto. Qed.

(** [alpha_U] does not bound U in symmetric mode: allowing two entries in each of six rows,
    U gets fifteen. *)
Theorem C53_symmetric_alpha_U_refuted :
  Forall (caps MQ ceilQ ex_cap) (multiples MQ ex_times (h_alpha_U MQ (ex_aopts (qz 100) a24))) /\
  exists precs, ey_factorize (fun _ _ _ => false) (ex_aopts (qz 100) a24) true ex_sfull = Ok precs /\
    list_sum (map ex_cap (ref_rows true (Nat.max 1 (ex_low 36 6)) ex_sfull 6)) = 12 /\ total_U precs = 15.
Proof.
  destruct C53_hyps as (H1 & _). split; [exact H1|].
  assert (X : match ey_factorize (fun _ _ _ => false) (ex_aopts (qz 100) a24) true ex_sfull with Ok l => total_U l = 15 | _ => False end) by (vm_compute; reflexivity).
  destruct (ey_factorize _ _ _ _) as [l| |]; [|destruct X|destruct X]. exists l. split; [reflexivity|]. split; [vm_compute; reflexivity|exact X].
Qed.
Print Assumptions C53_symmetric_alpha_U_refuted.
