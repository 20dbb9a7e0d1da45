(** * Property C52: matching and scaling of the preprocessing. *)
From Coq Require Import List Arith ZArith Bool Lia.
From Verif Require Import Base EqModel EqSpec EqProofs1 EqProofs2 EqProofs3 EqProofs4.
Import ListNotations.

(** The kernel never leaves its arrays and always ends; it returns a permutation whose positive
    entries lie on stored entries: all of them with flag 0, not all with flag 1.  Missing from
    the full claim: columns with more than (n + 1) / 2 entries (see the [_refuted] theorems),
    maximality of the product. *)
Theorem C52_matching_permutation_partial : forall (K : ROps) (V : Type) (rabs : V -> RR K) (rlog : RR K -> RR K) (rbig : nat -> RR K) (rhuge : RR K)
  (n nnz : nat) (ip irn : list nat) (vals : list V) (jo jq : list nat) (jmx jc : list (RR K)),
  req K (rinf K) (rinf K) = true ->
  1 <= n -> 1 <= nnz -> pattern1 n ip irn -> half_full n ip ->
  length vals = length irn -> length jo = n -> length jq = n -> length jmx = n -> length jc = length irn ->
  exists info p u d, compute K V rabs rlog rbig rhuge n nnz ip irn vals jo jq jmx jc = Ok (Good K info p u d) /\
    info <= 2 /\ length u = n /\ length d = n /\ perm_abs n p /\
    (forall i, 1 <= i <= n -> (0 < n1 0 p i)%Z -> stored1 ip irn i (Z.to_nat (n1 0%Z p i))) /\
    (info = 0 -> forall i, 1 <= i <= n -> (0 < n1 0 p i)%Z) /\
    (info = 1 -> exists i, 1 <= i <= n /\ (n1 0 p i < 0)%Z).
Proof.
  intros. destruct (compute_l K V rabs rlog rbig rhuge H (fun _ => True) n nnz ip irn vals jo jq jmx jc) as (info & p & u & d & X); auto.
  exists info, p, u, d. tauto.
Qed.
Print Assumptions C52_matching_permutation_partial.

(** The verdict is right: with nonzero values, flag 0 means that a full matching exists and
    flag 1 that none does, for arithmetic in which sums of finite numbers are finite.  Missing:
    columns with more than (n + 1) / 2 entries (refuted below). *)
Theorem C52_verdict_partial : forall (K : ROps) (V : Type) (rabs : V -> RR K) (rlog : RR K -> RR K) (rbig : nat -> RR K) (rhuge : RR K)
  (fin : RR K -> Prop) (n nnz : nat) (ip irn : list nat) (vals : list V) (jo jq : list nat) (jmx jc : list (RR K)),
  finite_laws K fin -> nonzero_values K V rabs rlog fin vals ->
  1 <= n -> 1 <= nnz -> pattern1 n ip irn -> tight1 n ip irn -> half_full n ip ->
  length vals = length irn -> length jo = n -> length jq = n -> length jmx = n -> length jc = length irn ->
  exists info p u d, compute K V rabs rlog rbig rhuge n nnz ip irn vals jo jq jmx jc = Ok (Good K info p u d) /\ info <= 2 /\
    (info = 0 -> nonsingular_pattern n ip irn) /\ (info = 1 -> ~ nonsingular_pattern n ip irn).
Proof.
  intros. destruct (compute_l K V rabs rlog rbig rhuge (fl_inf _ _ H) fin n nnz ip irn vals jo jq jmx jc) as (info & p & u & d & X); auto.
  destruct X as (X0 & X1 & _ & _ & (_ & P1 & P2) & X3 & X4 & _ & X5).
  exists info, p, u, d. split; [auto|]. split; [auto|]. split; [|auto].
  intros E. specialize (X4 E). exists (fun i => Z.to_nat (n1 0%Z p i)). split.
  - intros i Hi. specialize (X4 i Hi). specialize (P1 i Hi). split; [lia|auto].
  - intros i i' Hi Hi' Ei. apply P2; auto. specialize (X4 i Hi) as A. specialize (X4 i' Hi') as B. lia.
Qed.
Print Assumptions C52_verdict_partial.

(** A matrix without entries is refused (negative flag, an error of the caller). *)
Theorem C52_empty_rejected : forall (K : ROps) (V : Type) rabs rlog rbig rhuge n ip irn (vals : list V) jo jq jmx jc,
  compute K V rabs rlog rbig rhuge n 0 ip irn vals jo jq jmx jc = Ok (Bad K).
Proof. intros. unfold compute. destruct (n <? 1); reflexivity. Qed.
Print Assumptions C52_empty_rejected.

(** ** Columns of more than (n + 1) / 2 entries *)
Definition miss_ip := [1; 2; 7; 9; 13; 14; 15].
Definition miss_irn := [3; 1; 2; 4; 5; 6; 2; 4; 1; 2; 4; 5; 4; 1].
Definition miss_vals : list Z := [4; 2; 2; 1; 4; 1; 1; 4; 2; 1; 4; 2; 4; 4]%Z.

Lemma small_forall : forall (P : nat -> bool) n, forallb P (seq 1 n) = true -> forall i, 1 <= i <= n -> P i = true.
Proof. intros P n H i Hi. rewrite forallb_forall in H. apply H. apply in_seq. lia. Qed.

Definition pattern1_b (n : nat) (ip irn : list nat) : bool :=
  (length ip =? S n) && (1 <=? n1 0 ip 1) && forallb (fun j => n1 0 ip j <=? n1 0 ip (S j)) (seq 1 n) &&
  (n1 0 ip (S n) <=? S (length irn)) && forallb (fun k => (1 <=? n1 0 irn k) && (n1 0 irn k <=? n)) (seq 1 (length irn)) &&
  forallb (fun j => forallb (fun k => forallb (fun k' =>
     negb (n1 0 irn k =? n1 0 irn k') || (k =? k')) (seq (n1 0 ip j) (n1 0 ip (S j) - n1 0 ip j)))
     (seq (n1 0 ip j) (n1 0 ip (S j) - n1 0 ip j))) (seq 1 n).
Lemma pattern1_b_ok : forall n ip irn, pattern1_b n ip irn = true -> pattern1 n ip irn.
Proof.
  intros n ip irn H. unfold pattern1_b in H. repeat rewrite andb_true_iff in H. destruct H as (((((H1 & H2) & H3) & H4) & H5) & H6).
  constructor.
  - now apply Nat.eqb_eq.
  - now apply Nat.leb_le.
  - intros j Hj. apply Nat.leb_le. now apply (small_forall _ _ H3).
  - now apply Nat.leb_le.
  - intros k Hk. pose proof (small_forall _ _ H5 k Hk) as X. cbv beta in X. apply andb_true_iff in X. destruct X as (X1 & X2).
    apply Nat.leb_le in X1, X2. lia.
  - intros j k k' Hj Hk Hk' E. pose proof (small_forall _ _ H6 j Hj) as X. cbv beta in X.
    rewrite forallb_forall in X. specialize (X k ltac:(apply in_seq; lia)). rewrite forallb_forall in X.
    specialize (X k' ltac:(apply in_seq; lia)). apply orb_true_iff in X. destruct X as [X|X]; [|now apply Nat.eqb_eq].
    rewrite E, Nat.eqb_refl in X. discriminate.
Qed.

Definition match_b (n : nat) (ip irn : list nat) (s : list nat) : bool :=
  forallb (fun i => (1 <=? n1 0 s i) && (n1 0 s i <=? n) &&
     existsb (fun k => n1 0 irn k =? i) (seq (n1 0 ip (n1 0 s i)) (n1 0 ip (S (n1 0 s i)) - n1 0 ip (n1 0 s i)))) (seq 1 n) &&
  forallb (fun i => forallb (fun i' => negb (n1 0 s i =? n1 0 s i') || (i =? i')) (seq 1 n)) (seq 1 n).
Lemma match_b_ok : forall n ip irn s, match_b n ip irn s = true -> nonsingular_pattern n ip irn.
Proof.
  intros n ip irn s H. apply andb_true_iff in H. destruct H as (H1 & H2). exists (n1 0 s). split.
  - intros i Hi. pose proof (small_forall _ _ H1 i Hi) as X. cbv beta in X. repeat rewrite andb_true_iff in X. destruct X as ((X1 & X2) & X3).
    apply Nat.leb_le in X1, X2. split; [lia|]. apply existsb_exists in X3. destruct X3 as (k & K1 & K2). apply in_seq in K1. apply Nat.eqb_eq in K2.
    exists k. split; [lia|auto].
  - intros i i' Hi Hi' E. pose proof (small_forall _ _ H2 i Hi) as X. cbv beta in X. pose proof (small_forall _ _ X i' Hi') as Y. cbv beta in Y.
    apply orb_true_iff in Y. destruct Y as [Y|Y]; [|now apply Nat.eqb_eq]. rewrite E, Nat.eqb_refl in Y. discriminate.
Qed.

(** A structurally nonsingular matrix (all values nonzero) is reported as structurally
    singular, and the permutation uses an entry that is not stored: the code overwrites the
    list of positions it is reading while it builds its heap (equilibrate.hpp:556-579). *)
Theorem C52_missed_matching_refuted : exists n ip irn vals,
  pattern1 n ip irn /\ length vals = length irn /\ (forall v, In v vals -> v <> 0%Z) /\ nonsingular_pattern n ip irn /\
  forall junk, junk < 10 -> exists p u d, compute_z n ip irn vals junk = Ok (Good KZ 1 p u d) /\
    exists i, 1 <= i <= n /\ ~ stored1 ip irn i (Z.abs_nat (n1 0%Z p i)).
Proof.
  exists 6, miss_ip, miss_irn, miss_vals. split; [now apply pattern1_b_ok|]. split; [reflexivity|].
  split. { intros v Hv. cbn in Hv. repeat (destruct Hv as [Hv|Hv]; [lia|]). contradiction. }
  split. { apply match_b_ok with (s := [6; 3; 1; 5; 4; 2]). reflexivity. }
  intros junk Hj. eexists _, _, _. split.
  - do 10 (destruct junk as [|junk]; [vm_compute; reflexivity|]). lia.
  - exists 6. split; [lia|]. intros (k & H1 & H2). change (9 <= k < 13) in H1. assert (C : k = 9 \/ k = 10 \/ k = 11 \/ k = 12) by lia.
    destruct C as [->|[->|[->| ->]]]; discriminate H2.
Qed.
Print Assumptions C52_missed_matching_refuted.

(** The accesses themselves go wrong: the kernel reads position 0 of its queue, for a
    structurally nonsingular matrix.  (In the code [q[0]] is the last element of the array
    [pr], not a queue position.) *)
Definition over_ip := [1; 7; 13; 17; 23; 28; 29].
Definition over_irn := [1;2;3;4;5;6; 1;2;3;4;5;6; 1;2;4;5; 1;2;3;4;5;6; 1;3;4;5;6; 1].
Definition over_vals : list Z := [4;4;4;2;2;2; 4;4;4;4;4;2; 2;4;1;4; 4;1;2;4;4;4; 1;2;1;4;2; 4]%Z.
Theorem C52_work_overlap_refuted : exists n ip irn vals,
  pattern1 n ip irn /\ length vals = length irn /\ (forall v, In v vals -> v <> 0%Z) /\ nonsingular_pattern n ip irn /\
  forall junk, junk < 10 -> compute_z n ip irn vals junk = UB.
Proof.
  exists 6, over_ip, over_irn, over_vals. split; [now apply pattern1_b_ok|]. split; [reflexivity|].
  split. { intros v Hv. cbn in Hv. repeat (destruct Hv as [Hv|Hv]; [lia|]). contradiction. }
  split. { apply match_b_ok with (s := [6; 1; 2; 3; 4; 5]). reflexivity. }
  intros junk Hj. do 10 (destruct junk as [|junk]; [vm_compute; reflexivity|]). lia.
Qed.
Print Assumptions C52_work_overlap_refuted.

(** ** Concrete cases *)
Definition ex_ip := [1; 3; 5; 8; 10; 12].
Definition ex_irn := [1; 2; 1; 3; 2; 3; 5; 1; 4; 4; 3].
Definition ex_vals : list Z := [4; 2; 8; 1; 16; 2; -1; 32; 4; 8; 2]%Z.
Example C52_case_hyps : pattern1 5 ex_ip ex_irn /\ half_full 5 ex_ip /\ nonsingular_pattern 5 ex_ip ex_irn /\ req KZ (rinf KZ) (rinf KZ) = true.
Proof.
  split; [now apply pattern1_b_ok|]. split; [|split; [apply match_b_ok with (s := [2; 1; 5; 4; 3]); reflexivity|reflexivity]].
  intros j Hj. do 6 (destruct j as [|j]; [try (cbn; lia)|]). lia.
Qed.
Example C52_case_run : exists u d, compute_z 5 ex_ip ex_irn ex_vals 7 = Ok (Good KZ 0 [4; 1; 2; 5; 3]%Z u d).
Proof. eexists _, _. vm_compute. reflexivity. Qed.
(** The last column is empty: the matching is completed by a negative entry. *)
Definition sg_ip := [1; 3; 5; 6; 6].
Example C52_case_singular : exists u d,
  compute_z 4 sg_ip [1; 2; 1; 3; 3] [4; 2; 8; 1; 16]%Z 7 = Ok (Good KZ 1 [2; 1; 3; -4]%Z u d).
Proof. eexists _, _. vm_compute. reflexivity. Qed.

(** The hypotheses of the verdict hold for integers with infinity. *)
Example C52_case_laws : finite_laws KZ (fun x => x <> None) /\
  (forall vals, (forall v, In v vals -> v <> 0%Z) -> nonzero_values KZ Z (fun v => Some (Z.abs v)) (option_map Z.log2) (fun x => x <> None) vals) /\
  tight1 5 ex_ip ex_irn /\ tight1 4 sg_ip [1; 2; 1; 3; 3].
Proof.
  split; [|split; [|split; split; reflexivity]].
  - constructor; try reflexivity; try (intros [x|] [y|]; cbn; congruence); intros [x|]; cbn; congruence.
  - intros vals H v Hv. specialize (H v Hv). cbn. split; [apply Z.ltb_lt; lia|]. split; [apply Z.eqb_neq; lia|congruence].
Qed.
