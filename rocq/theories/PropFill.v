(** * Property C53: how much fill the triangular factors may hold. *)
From Coq Require Import List Arith Lia Bool ZArith QArith Qcanon Qround.
From Verif Require Import Base Scalar Spec CSModel CSSpec CSProofs ConvModel ConvSpec ConvProofs Mag VecModel VecSpec PruneModel
  CroutModel PivotModel PivotSpec PropCS PrecModel PrecSpec FactorModel FactorSpec PropVec PropCrout PropFactor
  FactorProofs1 FactorProofs2 FactorProofs3 FactorProofs4 FactorProofs5 FillSpec FillProofs1 FillProofs2 FillProofs3.
Import ListNotations.
Close Scope Q_scope. Close Scope Qc_scope. Open Scope nat_scope.

(** ** C53.  Whatever the numbers do: if the space factor [alpha_U] (in every multiple
    of it the code uses) allows at most [BU z] entries for a row with reference size [z],
    then every accepted row of U on every level has at most [BU] of the reference size of
    the original row it stands for, and the same holds for the columns of L with [alpha_L];
    so all factors of all levels together hold at most the sum of these allowances over
    the rows and columns of the input: the levels do not multiply the memory. *)
Theorem C53_fill_bounded_partial : forall O (G : Mag O) root shrink times bad big mdiv ceil_mul nth_el srt (opts : HOpts G)
    pre low go_dense mk_dense junkT junkN ji jv (rm : bool) (A : CS O) n BU BL,
  MagLaws G -> nth_element_ok (mle G) nth_el -> rearranges srt ->
  (forall k j, 1 <= k -> 1 <= low k j) -> (forall piv lvl, ceil_pos G ceil_mul (aL G times opts piv lvl)) -> (forall piv lvl, ceil_pos G ceil_mul (aU G times opts piv lvl)) ->
  pre_safe pre ->
  Forall (caps G ceil_mul BU) (multiples G times (h_alpha_U G opts)) -> Forall (caps G ceil_mul BL) (multiples G times (h_alpha_L G opts)) ->
  valid A -> tight A -> psize A = n -> ssize A = n -> 1 <= n -> 1 <= nnz_of A ->
  let rsz := ref_rows rm (low (nnz_of A) n) A n in
  let csz := ref_cols rm (low (nnz_of A) n) A n in
  forall precs,
  factorize G root shrink times bad big mdiv ceil_mul nth_el srt opts pre low go_dense mk_dense junkT junkN ji jv rm A = Ok precs ->
  fill_within BU BL rsz csz precs /\
  total_U precs <= list_sum (map BU rsz) /\
  total_L precs <= list_sum (map BL csz).
Proof.
  intros O G root shrink times bad big mdiv ceil_mul nth_el srt opts pre low go_dense mk_dense junkT junkN ji jv rm A n BU BL
    ML NE SR HL CL CU HP KU KL VA TA PA SA Hn HZ rsz csz precs E. rewrite <- PA in Hn.
  unfold factorize in E.
  assert (X : good BU BL rsz csz precs /\ precs <> []).
  { eapply kernel_f; try exact E; auto; try lia.
    - unfold rsz, ref_rows. now rewrite map_length, seq_length.
    - unfold csz, ref_cols. now rewrite map_length, seq_length.
    - intros _ i Hi. unfold rsz, csz, ref_rows, ref_cols. rewrite PA in *. rewrite !nth_map_seq by auto. auto. }
  destruct X as (X & NN). split; [eapply good_within; eauto|]. destruct (good_total _ _ _ _ _ X) as (X1 & X2). auto.
Qed.
Print Assumptions C53_fill_bounded_partial.

(** ** A run in which the limit bites: a full matrix of size 6. *)
Definition ex_full : CS OQ := @mkCS OQ 6 6 [0;6;12;18;24;30;36] (concat (repeat [0;1;2;3;4;5] 6))
  (map (fun k => qz (if Z.eqb (k / 6) (k mod 6) then 20 + k else 1 + k mod 5)%Z) (map Z.of_nat (seq 0 36))).
Definition ex_fill (alpha : Qc) : list (nat * nat) :=
  match ex_factorize (fun _ _ _ => false) (ex_opts (qz 0) (qz 0) alpha) true ex_full with
  | Ok l => map (fun P => (length (indices (pL P)), length (indices (pU P)))) l
  | _ => []
  end.
(** [alpha = 1/24]: the largest multiple is [1/3], and a row of 6 may keep 2 entries. *)
Definition ex_cap (z : nat) : nat := Nat.max 1 (ceilQ (Qcdiv (qz 1) (qz 3)) z).
Lemma Z2Nat_le_l : forall a b, (a <= b)%Z -> Z.to_nat a <= Z.to_nat b.
Proof. intros. lia. Qed.
Example C53_hyps :
  Forall (caps MQ ceilQ ex_cap) (multiples MQ ex_times (Qcdiv (qz 1) (qz 24))) /\
  (forall pv lvl, ceil_pos MQ ceilQ (aU MQ ex_times (ex_opts (qz 0) (qz 0) (Qcdiv (qz 1) (qz 24))) pv lvl)) /\
  valid ex_full /\ tight ex_full /\ nnz_of ex_full = 36 /\ ex_cap 6 = 2 /\
  list_sum (map ex_cap (ref_rows true (Nat.max 1 (ex_low 36 6)) ex_full 6)) = 12.
Proof.
  split; [|split; [|split; [|split; [|split; [|split]]]]]; try reflexivity.
  - assert (X : forall a : Qc, Qle_bool a 0 = false -> Qle_bool a (Qcdiv (qz 1) (qz 3)) = true -> caps MQ ceilQ ex_cap a).
    { intros a H1 H2. split; [exact H1|]. intros z. unfold ex_cap. apply Nat.max_le_compat_l. unfold ceilQ. apply Z2Nat_le_l.
      apply Qceiling_resp_le. apply Qmult_le_compat_r; [now apply Qle_bool_iff|]. change 0%Q with (inject_Z 0). rewrite <- Zle_Qle. apply Nat2Z.is_nonneg. }
    unfold multiples. repeat (constructor; [apply X; vm_compute; reflexivity|]). constructor.
  - intros pv lvl H k Hk. destruct C49_hyps as (_ & _ & _ & X). apply X; auto.
  - split; [apply wfb_wf; reflexivity|apply sortedb_sorted; reflexivity].
  - apply tightb_tight. reflexivity.
Qed.
Example C53_run : ex_fill (qz 100) = [(15, 15)] /\ ex_fill (Qcdiv (qz 1) (qz 24)) = [(5, 5)].
Proof. vm_compute. auto. Qed.
