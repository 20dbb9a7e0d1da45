(** * Property C56: the matching has the greatest product, the scaling makes it 1. *)
From Coq Require Import List Arith ZArith Bool Lia Reals Lra.
From Verif Require Import PropEq Base EqModel EqSpec DualSpec EqProofs1 EqProofs2 EqProofs3 EqProofs4 EqDual1 EqDual2 EqDual3 EqDual4 EqDual5 EqDual6.
Import ListNotations.
Local Open Scope nat_scope.

(** The scaling.  With flag 0, in arithmetic without rounding, the returned logarithms of the
    scaling bring every stored entry to at most 1 in absolute value, the matched ones to 1.
    Missing: columns with more than (n + 1) / 2 entries (C52_work_overlap_refuted). *)
Theorem C56_scaling_partial : forall (K : ROps) (ev : RR K -> option R) (V : Type) (rabs : V -> RR K) (rlog : RR K -> RR K)
  (rbig : nat -> RR K) (rhuge : RR K) (n nnz : nat) (ip irn : list nat) (vals : list V) (jo jq : list nat) (jmx jc : list (RR K)) (lv : nat -> R),
  exact_arith K ev -> nonzero_values K V rabs rlog (fun x => exists a, ev x = Some a) vals -> log_values K ev V rabs rlog vals lv ->
  1 <= n -> 1 <= nnz -> pattern1 n ip irn -> tight1 n ip irn -> half_full n ip ->
  length vals = length irn -> length jo = n -> length jq = n -> length jmx = n -> length jc = length irn ->
  exists info p u d, compute K V rabs rlog rbig rhuge n nnz ip irn vals jo jq jmx jc = Ok (Good K info p u d) /\ info <= 2 /\
    (info = 0 -> exists U D : nat -> R,
      (forall i, 1 <= i <= n -> ev (n1 (r0 K) u i) = Some (U i) /\ ev (n1 (r0 K) d i) = Some (D i)) /\
      (forall j k, 1 <= j <= n -> n1 0 ip j <= k < n1 0 ip (S j) -> (lv k + U (n1 0%nat irn k) + D j <= 0)%R) /\
      (forall i, 1 <= i <= n -> exists k, let j := Z.to_nat (n1 0%Z p i) in
         1 <= j <= n /\ n1 0 ip j <= k < n1 0 ip (S j) /\ n1 0 irn k = i /\ (lv k + U i + D j = 0)%R)).
Proof.
  intros K ev V rabs rlog rbig rhuge n nnz ip irn vals jo jq jmx jc lv EA NZ LV Hn Hz PW T1 HF Lv Lo Lq Lm Lc.
  destruct (compute_l K V rabs rlog rbig rhuge (proj2 (ea_eq K ev EA (rinf K) (rinf K)) eq_refl) (fun _ => True) n nnz ip irn vals jo jq jmx jc)
    as (info & p & u & d & E & X0 & _ & _ & (Lp & P1 & P2) & X3 & X4 & _); auto.
  exists info, p, u, d. split; [auto|]. split; [auto|]. intros E0.
  pose proof (compute_d K ev EA V rabs rlog rbig rhuge n ip irn vals PW Lv NZ T1 HF nnz jo jq jmx jc lv LV Lo Lq Lm Lc _ E E0) as (U & D & D1 & D2 & D3 & D4).
  assert (POS : forall i, 1 <= i <= n -> (0 < n1 0%Z p i)%Z) by auto.
  assert (ROW : forall j k, 1 <= j <= n -> n1 0 ip j <= k < n1 0 ip (S j) -> 1 <= k <= length irn /\ 1 <= n1 0 irn k <= n).
  { intros j k Hj Hk. destruct T1 as (T2 & T3). pose proof (pw_ip _ _ _ PW) as Lip.
    assert (M : forall b c, 1 <= b -> b <= c -> c <= S n -> n1 0 ip b <= n1 0 ip c).
    { intros b c Hb Hc Hcn. induction Hc as [|m Hm IH]; [lia|]. specialize (IH ltac:(lia)). pose proof (pw_mono _ _ _ PW m ltac:(lia)). lia. }
    pose proof (M 1 j ltac:(lia) ltac:(lia) ltac:(lia)). pose proof (M (S j) (S n) ltac:(lia) ltac:(lia) ltac:(lia)).
    assert (1 <= k <= length irn) by lia. split; [auto|]. apply (pw_rows _ _ _ PW); auto. }
  (* the matched entry of row i *)
  assert (MI : forall i, 1 <= i <= n -> exists k, let j := Z.to_nat (n1 0%Z p i) in
         1 <= j <= n /\ n1 0 ip j <= k < n1 0 ip (S j) /\ n1 0 irn k = i /\ (lv k + U i + D j = 0)%R).
  { intros i Hi. specialize (P1 i Hi) as Q1. specialize (POS i Hi) as Q2. set (j := Z.to_nat (n1 0%Z p i)).
    assert (Hj : 1 <= j <= n) by lia. destruct (D4 j Hj) as (k & K1 & K2 & K3). destruct (ROW j k Hj K1) as (R1 & R2).
    assert (Ei : N1 irn k = i). { apply P2; auto. rewrite K2. lia. }
    exists k. rewrite Ei in K3. auto. }
  exists U, D. split; [|split; [|exact MI]].
  - intros i Hi. split; [|apply D2; auto]. apply D1; auto. destruct (MI i Hi) as (k & M1 & M2 & M3 & _). exists k. split; [|auto]. eapply ROW; eauto.
  - intros j k Hj Hk. apply (D3 (N1 irn k) j k); auto. eapply ROW; eauto.
Qed.
Print Assumptions C56_scaling_partial.

(** The matching.  With flag 0 no permutation on stored entries has a greater product of
    absolute values (sum of logarithms) than the one returned.  Missing: as above. *)
Theorem C56_maximum_product_partial : forall (K : ROps) (ev : RR K -> option R) (V : Type) (rabs : V -> RR K) (rlog : RR K -> RR K)
  (rbig : nat -> RR K) (rhuge : RR K) (n nnz : nat) (ip irn : list nat) (vals : list V) (jo jq : list nat) (jmx jc : list (RR K)) (lv : nat -> R),
  exact_arith K ev -> nonzero_values K V rabs rlog (fun x => exists a, ev x = Some a) vals -> log_values K ev V rabs rlog vals lv ->
  1 <= n -> 1 <= nnz -> pattern1 n ip irn -> tight1 n ip irn -> half_full n ip ->
  length vals = length irn -> length jo = n -> length jq = n -> length jmx = n -> length jc = length irn ->
  exists info p u d, compute K V rabs rlog rbig rhuge n nnz ip irn vals jo jq jmx jc = Ok (Good K info p u d) /\ info <= 2 /\
    (info = 0 -> exists s, transversal n ip irn s (fun i => Z.to_nat (n1 0%Z p i)) /\
      forall s' c', transversal n ip irn s' c' -> (rsum n (fun i => lv (s' i)) <= rsum n (fun i => lv (s i)))%R).
Proof.
  intros K ev V rabs rlog rbig rhuge n nnz ip irn vals jo jq jmx jc lv EA NZ LV Hn Hz PW T1 HF Lv Lo Lq Lm Lc.
  destruct (compute_l K V rabs rlog rbig rhuge (proj2 (ea_eq K ev EA (rinf K) (rinf K)) eq_refl) (fun _ => True) n nnz ip irn vals jo jq jmx jc)
    as (info & p & u & d & E & X0 & _ & _ & (Lp & P1 & P2) & X3 & X4 & _); auto.
  destruct (C56_scaling_partial K ev V rabs rlog rbig rhuge n nnz ip irn vals jo jq jmx jc lv) as (info' & p' & u' & d' & E' & Y); auto.
  rewrite E in E'. injection E' as <- <- <- <-. exists info, p, u, d. split; [auto|]. split; [auto|]. intros E0.
  destruct Y as (_ & Y). destruct (Y E0) as (U & D & _ & Y2 & Y3).
  assert (CH : exists s : nat -> nat, forall i, 1 <= i <= n -> let j := Z.to_nat (n1 0%Z p i) in
     1 <= j <= n /\ n1 0 ip j <= s i < n1 0 ip (S j) /\ n1 0 irn (s i) = i /\ (lv (s i) + U i + D j = 0)%R).
  { clear - Y3. assert (G : forall m, m <= n -> exists s : nat -> nat, forall i, 1 <= i <= m -> let j := Z.to_nat (n1 0%Z p i) in
      1 <= j <= n /\ n1 0 ip j <= s i < n1 0 ip (S j) /\ n1 0 irn (s i) = i /\ (lv (s i) + U i + D j = 0)%R).
    { induction m; intros Hm. { exists (fun _ => 0). intros; lia. } destruct (IHm ltac:(lia)) as (s & Hs). destruct (Y3 (S m) ltac:(lia)) as (k & Hk).
      exists (fun i => if i =? S m then k else s i). intros i Hi. cbv beta. destruct (Nat.eqb_spec i (S m)) as [->|]; [exact Hk|apply Hs; lia]. }
    apply (G n); auto. }
  destruct CH as (s & CH). exists s.
  assert (TS : transversal n ip irn s (fun i => Z.to_nat (n1 0%Z p i))).
  { split. { intros i Hi. destruct (CH i Hi) as (C1 & C2 & C3 & _). auto. }
    intros i i' Hi Hi' Ec. apply P2; auto. specialize (X4 E0). pose proof (X4 i Hi). pose proof (X4 i' Hi'). lia. }
  split; [auto|]. intros s' c' TS'. apply (dual_max n ip irn lv U D s _ s' c' TS TS').
  - intros i j k Hi Hj Hk <-. apply Y2; auto.
  - intros i Hi. apply CH; auto.
Qed.
Print Assumptions C56_maximum_product_partial.

Lemma KR_exact : exact_arith KR (fun x => x).
Proof.
  constructor; try reflexivity.
  - intros [x|] [y|]; cbn; try (split; [discriminate|tauto]); try tauto. destruct (Rle_dec x y); split; auto; try discriminate; lra.
  - intros [x|] [y|]; cbn; try (split; [discriminate|tauto]); try tauto. destruct (Rlt_dec x y); split; auto; try discriminate; lra.
  - intros [x|] [y|]; cbn; try (split; [discriminate|congruence]); try tauto. destruct (Req_EM_T x y); split; intros H; try discriminate; congruence.
  - intros x y a b -> ->. reflexivity.
  - intros x y a b -> ->. reflexivity.
Qed.

Lemma rprod_exp : forall n f, rprod n (fun i => exp (f i)) = exp (rsum n f).
Proof. induction n; intros f; cbn [rprod rsum]; [symmetry; apply exp_0|]. rewrite IHn, exp_plus. auto. Qed.
Lemma rprod_ext : forall n f g, (forall i, 1 <= i <= n -> f i = g i) -> rprod n f = rprod n g.
Proof. induction n; intros f g H; cbn [rprod]; auto. rewrite (IHn f g), (H (S n)) by (try lia; intros; apply H; lia). auto. Qed.

(** Real matrices: with flag 0 the matched entries have the greatest product of absolute
    values, and scaling rows and columns by the exponentials of the returned numbers brings the
    entries to at most 1, the matched ones to 1.  Missing: as above. *)
Theorem C56_real_matrix_partial : forall (rbig : nat -> option R) (rhuge : option R) (n nnz : nat) (ip irn : list nat) (vals : list R)
  (jo jq : list nat) (jmx jc : list (option R)),
  (forall v, In v vals -> v <> 0%R) -> 1 <= n -> 1 <= nnz -> pattern1 n ip irn -> tight1 n ip irn -> half_full n ip ->
  length vals = length irn -> length jo = n -> length jq = n -> length jmx = n -> length jc = length irn ->
  exists info p u d, compute KR R (fun v => Some (Rabs v)) (option_map ln) rbig rhuge n nnz ip irn vals jo jq jmx jc = Ok (Good KR info p u d) /\
    (info = 0 -> exists s, transversal n ip irn s (fun i => Z.to_nat (n1 0%Z p i)) /\
      (forall s' c', transversal n ip irn s' c' -> (rprod n (fun i => Rabs (n1 0 vals (s' i))) <= rprod n (fun i => Rabs (n1 0 vals (s i))))%R) /\
      exists U D, (forall i, 1 <= i <= n -> n1 (Some 0%R) u i = Some (U i) /\ n1 (Some 0%R) d i = Some (D i)) /\
        (forall j k, 1 <= j <= n -> n1 0 ip j <= k < n1 0 ip (S j) -> (exp (U (n1 0%nat irn k)) * Rabs (n1 0 vals k) * exp (D j) <= 1)%R) /\
        (forall i, 1 <= i <= n -> (exp (U i) * Rabs (n1 0 vals (s i)) * exp (D (Z.to_nat (n1 0%Z p i))) = 1)%R)).
Proof.
  intros rbig rhuge n nnz ip irn vals jo jq jmx jc NZ Hn Hz PW T1 HF Lv Lo Lq Lm Lc.
  set (lv := fun k => ln (Rabs (n1 0%R vals k))).
  assert (NZ' : nonzero_values KR R (fun v => Some (Rabs v)) (option_map ln) (fun x => exists a, x = Some a) vals).
  { intros v Hv. specialize (NZ v Hv). pose proof (Rabs_pos_lt v NZ) as P. cbn. destruct (Rlt_dec 0 (Rabs v)); [|lra]. destruct (Req_EM_T (Rabs v) 0); [lra|].
    split; [auto|]. split; [auto|]. eauto. }
  assert (LV : log_values KR (fun x => x) R (fun v => Some (Rabs v)) (option_map ln) vals lv).
  { intros k v H. cbn. unfold lv, n1. rewrite Nat.sub_succ, Nat.sub_0_r, (nth_error_nth _ _ _ H). reflexivity. }
  destruct (C56_scaling_partial KR (fun x => x) R (fun v => Some (Rabs v)) (option_map ln) rbig rhuge n nnz ip irn vals jo jq jmx jc lv KR_exact NZ' LV)
    as (info & p & u & d & E & _ & A); auto.
  destruct (C56_maximum_product_partial KR (fun x => x) R (fun v => Some (Rabs v)) (option_map ln) rbig rhuge n nnz ip irn vals jo jq jmx jc lv KR_exact NZ' LV)
    as (info' & p' & u' & d' & E' & _ & B); auto.
  rewrite E in E'. injection E' as <- <- <- <-. exists info, p, u, d. split; [auto|]. intros E0.
  destruct (A E0) as (U & D & A1 & A2 & A3). destruct (B E0) as (s & B1 & B2). clear A B.
  assert (IN : forall i k c c', transversal n ip irn c c' -> 1 <= i <= n -> k = c i -> 1 <= k <= length irn).
  { intros i k c c' (T2 & _) Hi ->. destruct (T2 i Hi) as (T3 & T4 & _). destruct T1 as (T5 & T6).
    assert (M : forall b c, 1 <= b -> b <= c -> c <= S n -> n1 0 ip b <= n1 0 ip c).
    { intros b e Hb He Hcn. induction He as [|m Hm IH]; [lia|]. specialize (IH ltac:(lia)). pose proof (pw_mono _ _ _ PW m ltac:(lia)). lia. }
    pose proof (M 1 (c' i) ltac:(lia) ltac:(lia) ltac:(lia)). pose proof (M (S (c' i)) (S n) ltac:(lia) ltac:(lia) ltac:(lia)). lia. }
  assert (EL : forall k, 1 <= k <= length irn -> Rabs (n1 0%R vals k) = exp (lv k)).
  { intros k Hk. unfold lv. rewrite exp_ln; auto. apply Rabs_pos_lt. apply NZ. unfold n1. apply nth_In. lia. }
  exists s. split; [exact B1|]. split; [|exists U, D; split; [exact A1|split]].
  - intros s' c' TS. rewrite (rprod_ext n _ (fun i => exp (lv (s' i)))) by (intros i Hi; apply EL; apply (IN i (s' i) s' c'); auto).
    rewrite (rprod_ext n (fun i => Rabs (n1 0%R vals (s i))) (fun i => exp (lv (s i)))) by (intros i Hi; apply EL; exact (IN i (s i) s _ B1 Hi eq_refl)).
    rewrite !rprod_exp. specialize (B2 s' c' TS). destruct B2 as [B2|B2]; [left; apply exp_increasing; auto|right; congruence].
  - intros j k Hj Hk. assert (Rk : 1 <= k <= length irn).
    { clear - T1 PW Hj Hk. destruct T1 as (T5 & T6). assert (M : forall b c, 1 <= b -> b <= c -> c <= S n -> n1 0 ip b <= n1 0 ip c).
      { intros b e Hb He Hcn. induction He as [|m Hm IH]; [lia|]. specialize (IH ltac:(lia)). pose proof (pw_mono _ _ _ PW m ltac:(lia)). lia. }
      pose proof (M 1 j ltac:(lia) ltac:(lia) ltac:(lia)). pose proof (M (S j) (S n) ltac:(lia) ltac:(lia) ltac:(lia)). lia. }
    rewrite EL by auto. rewrite <- !exp_plus. specialize (A2 j k Hj Hk). replace (U (n1 0%nat irn k) + lv k + D j)%R with (lv k + U (n1 0%nat irn k) + D j)%R by lra.
    rewrite <- exp_0. destruct A2 as [A2|A2]; [left; apply exp_increasing; auto|right; congruence].
  - intros i Hi. destruct (A3 i Hi) as (k & K1 & K2 & K3 & K4). pose proof B1 as B0. destruct B1 as (B1 & _). destruct (B1 i Hi) as (S1 & S2 & S3).
    assert (k = s i) by (eapply (pw_nodup _ _ _ PW); eauto; congruence). subst k.
    assert (Rk : 1 <= s i <= length irn) by exact (IN i (s i) s _ B0 Hi eq_refl).
    rewrite EL by auto. rewrite <- !exp_plus. replace (U i + lv (s i) + D (Z.to_nat (n1 0%Z p i)))%R with 0%R by lra. apply exp_0.
Qed.
Print Assumptions C56_real_matrix_partial.

(** The verdict in exact arithmetic without overflow ([rhuge] above all numbers): flag 0 exactly
    for patterns with a full matching.  Missing: as above. *)
Theorem C56_verdict_partial : forall (K : ROps) (ev : RR K -> option R) (V : Type) (rabs : V -> RR K) (rlog : RR K -> RR K)
  (rbig : nat -> RR K) (rhuge : RR K) (n nnz : nat) (ip irn : list nat) (vals : list V) (jo jq : list nat) (jmx jc : list (RR K)) (lv : nat -> R),
  exact_arith K ev -> nonzero_values K V rabs rlog (fun x => exists a, ev x = Some a) vals -> log_values K ev V rabs rlog vals lv ->
  (forall x a, ev x = Some a -> rlt K x rhuge = true) ->
  1 <= n -> 1 <= nnz -> pattern1 n ip irn -> tight1 n ip irn -> half_full n ip ->
  length vals = length irn -> length jo = n -> length jq = n -> length jmx = n -> length jc = length irn ->
  exists info p u d, compute K V rabs rlog rbig rhuge n nnz ip irn vals jo jq jmx jc = Ok (Good K info p u d) /\
    (info = 0 <-> nonsingular_pattern n ip irn).
Proof.
  intros K ev V rabs rlog rbig rhuge n nnz ip irn vals jo jq jmx jc lv EA NZ LV BIG Hn Hz PW T1 HF Lv Lo Lq Lm Lc.
  destruct (compute_l K V rabs rlog rbig rhuge (proj2 (ea_eq K ev EA (rinf K) (rinf K)) eq_refl) (fun _ => True) n nnz ip irn vals jo jq jmx jc)
    as (info & p & u & d & E & X0 & _ & _ & (Lp & P1 & P2) & X3 & X4 & _); auto.
  exists info, p, u, d. split; [auto|]. split.
  - intros E0. specialize (X4 E0). exists (fun i => Z.to_nat (n1 0%Z p i)). split.
    + intros i Hi. specialize (X4 i Hi). specialize (P1 i Hi). split; [lia|auto].
    + intros i i' Hi Hi' Ei. apply P2; auto. specialize (X4 i Hi) as A. specialize (X4 i' Hi') as B. lia.
  - intros NS. pose proof (compute_complete K ev EA V rabs rlog rbig rhuge n ip irn vals PW Lv NZ T1 HF nnz jo jq jmx jc lv LV NS) as C.
    specialize (C (fun x (F : exists a, ev x = Some a) => match F with ex_intro _ a H => BIG x a H end) Lo Lq Lm Lc _ E). exact C.
Qed.
Print Assumptions C56_verdict_partial.

(** ** A case: integers with base 2 logarithms, a matrix whose greatest product is off the diagonal. *)
Lemma KZ_exact : exact_arith KZ (option_map IZR).
Proof.
  constructor; try reflexivity.
  - intros [x|] [y|]; cbn; try (split; [discriminate|tauto]); try tauto. rewrite Z.leb_le. split; [apply IZR_le|apply le_IZR].
  - intros [x|] [y|]; cbn; try (split; [discriminate|tauto]); try tauto. rewrite Z.ltb_lt. split; [apply IZR_lt|apply lt_IZR].
  - intros [x|] [y|]; cbn; try (split; [discriminate|congruence]); try tauto. rewrite Z.eqb_eq. split; [congruence|]. injection 1 as E. now apply eq_IZR.
  - intros [x|] [y|] a b; cbn; try discriminate. intros [= <-] [= <-]. now rewrite minus_IZR.
  - intros [x|] [y|] a b; cbn; try discriminate. intros [= <-] [= <-]. now rewrite plus_IZR.
Qed.
Definition dl_ip := [1; 4; 7; 9; 11; 14].
Definition dl_irn := [1; 2; 5; 1; 2; 3; 3; 4; 4; 5; 2; 4; 5].
Definition dl_vals : list Z := [8; 4; 1; 8; 2; 1; 2; 4; 16; 8; 1; 4; 1]%Z.
Example C56_case_hyps : pattern1 5 dl_ip dl_irn /\ tight1 5 dl_ip dl_irn /\ half_full 5 dl_ip /\
  nonzero_values KZ Z (fun v => Some (Z.abs v)) (option_map Z.log2) (fun x => exists a, option_map IZR x = Some a) dl_vals /\
  log_values KZ (option_map IZR) Z (fun v => Some (Z.abs v)) (option_map Z.log2) dl_vals (fun k => IZR (Z.log2 (n1 0%Z dl_vals k))).
Proof.
  split; [now apply pattern1_b_ok|]. split; [split; reflexivity|]. split; [|split].
  - intros j Hj. do 6 (destruct j as [|j]; [try (cbn; lia)|]). lia.
  - intros v Hv. cbn in Hv. repeat (destruct Hv as [<-|Hv]; [split; [reflexivity|split; [reflexivity|eexists; reflexivity]]|]). contradiction.
  - intros k v H. do 13 (destruct k as [|k]; [injection H as <-; reflexivity|]). destruct k; discriminate H.
Qed.
Example C56_case_run : exists u d, compute_z 5 dl_ip dl_irn dl_vals 7 = Ok (Good KZ 0 [2; 1; 3; 5; 4]%Z u d).
Proof. eexists _, _. vm_compute. reflexivity. Qed.
(** The theorem applies to that run: scaling and greatest product hold for the result. *)
Example C56_case_applies : exists p u d, compute_z 5 dl_ip dl_irn dl_vals 7 = Ok (Good KZ 0 p u d) /\
  exists s, transversal 5 dl_ip dl_irn s (fun i => Z.to_nat (n1 0%Z p i)) /\
    forall s' c', transversal 5 dl_ip dl_irn s' c' ->
      (rsum 5 (fun i => IZR (Z.log2 (n1 0%Z dl_vals (s' i)))) <= rsum 5 (fun i => IZR (Z.log2 (n1 0%Z dl_vals (s i)))))%R.
Proof.
  destruct C56_case_hyps as (H1 & H2 & H3 & H4 & H5). destruct C56_case_run as (u & d & R).
  destruct (C56_maximum_product_partial KZ (option_map IZR) Z (fun v => Some (Z.abs v)) (option_map Z.log2) (fun _ => None) None 5 (length dl_vals)
    dl_ip dl_irn dl_vals (repeat 7 5) (repeat 7 5) (repeat None 5) (repeat None (length dl_vals)) _ KZ_exact H4 H5) as (info & p & u' & d' & E & _ & X);
    auto; try (cbn; lia).
  unfold compute_z in R. rewrite E in R. injection R as -> -> -> ->. exists [2; 1; 3; 5; 4]%Z, u, d. split; [exact E|]. apply X. reflexivity.
Qed.
