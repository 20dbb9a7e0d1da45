(** * Property C51: the matrix handed to [factorize] is the one that is factorized. *)
From Coq Require Import List Arith Lia Bool ZArith QArith Qcanon.
From Verif Require Import Base Scalar Spec CSModel CSSpec CSProofs ConvModel ConvSpec ConvProofs ValidModel ValidSpec ValidProofs Mag VecModel VecSpec PruneModel
  PivotSpec PropCS PrecModel PrecSpec FactorModel FactorSpec PropConv PropVec PropCrout PropFactor InputModel InputSpec.
Import ListNotations.
Close Scope Q_scope. Close Scope Qc_scope. Open Scope nat_scope.

Section L.
  Context {O : Ops}.
  Variable O' : Ops.
  Variable same : bool.
  Variable cast : T O' -> T O.
  Variable jval : nat -> T O.
  Notation hif_factorize := (hif_factorize O' same cast jval).
  Notation UserCS := (UserCS O').
  Notation us := (u_start O'). Notation ui := (u_ind O'). Notation up := (u_p O'). Notation uv := (u_vals O').

  Lemma nth_us : forall (A : UserCS) i, nth i (map Z.to_nat (us A)) 0 = Z.to_nat (nth i (us A) 0%Z).
  Proof. intros. change 0 with (Z.to_nat 0) at 1. now rewrite map_nth. Qed.
  Lemma nth_ui : forall (A : UserCS) i, nth i (map Z.to_nat (ui A)) 0 = Z.to_nat (nth i (ui A) 0%Z).
  Proof. intros. change 0 with (Z.to_nat 0) at 1. now rewrite map_nth. Qed.

  Lemma first_zero_one : forall A : UserCS, 1 <= length (us A) -> nth 0 (us A) 0%Z = 0%Z -> nth 0 (us (one_based O' A)) 0%Z = 1%Z.
  Proof.
    intros A L F. cbn. rewrite nth_indep with (d' := (0 + 1)%Z) by (rewrite map_length; lia).
    rewrite (map_nth (fun z => z + 1)%Z). rewrite F. reflexivity.
  Qed.
  Lemma nth_succ : forall l i, i < length l -> nth i (map (fun z => z + 1)%Z l) 0%Z = (nth i l 0 + 1)%Z.
  Proof. intros l i H. rewrite nth_indep with (d' := (0 + 1)%Z) by (rewrite map_length; lia). now rewrite (map_nth (fun z => z + 1)%Z). Qed.
  Lemma pred_succ : forall l : list Z, map (fun z => z - 1)%Z (map (fun z => z + 1)%Z l) = l.
  Proof. intros. rewrite map_map. rewrite <- (map_id l) at 2. apply map_ext. intros; lia. Qed.

  Lemma one_based_l : forall R (k : CS O -> res R) chk (A : UserCS), 1 <= length (us A) -> nth 0 (us A) 0%Z = 0%Z ->
    hif_factorize k chk (one_based O' A) = hif_factorize k chk A.
  Proof.
    intros R k chk A L F. unfold InputModel.hif_factorize, import, to_zero_based, user_vals, user_nnz.
    pose proof (first_zero_one A L F) as F1. cbn [one_based u_start u_ind u_vals u_p u_s] in *. rewrite map_length.
    rewrite !(get_nth _ (map _ (us A)) _ 0%Z) by (rewrite map_length; lia). rewrite !(get_nth _ (us A) _ 0%Z) by lia.
    rewrite F1, F. cbn [bind Z.eqb]. rewrite !pred_succ. rewrite nth_succ by lia.
    replace (nth (length (us A) - 1) (us A) 0 + 1 - 1)%Z with (nth (length (us A) - 1) (us A) 0 - 0)%Z by lia. reflexivity.
  Qed.

  Lemma vals_l : forall A : UserCS, user_valid O' A -> user_vals O' same cast jval A = Ok (map cast (uv A)) /\ user_nnz O' A = Ok (Z.of_nat (length (ui A))).
  Proof.
    intros A []. unfold user_vals. assert (E : user_nnz O' A = Ok (Z.of_nat (length (ui A)))).
    { unfold user_nnz. rewrite !(get_nth _ (us A) _ 0%Z) by lia. cbn [bind]. rewrite uv_first, uv_len. replace (up A + 1 - 1) with (up A) by lia. rewrite uv_ind. f_equal. lia. }
    split; auto. rewrite E. cbn [bind]. rewrite Nat2Z.id. destruct (Z.ltb_spec (Z.of_nat (length (ui A))) 0); [lia|]. destruct same.
    - rewrite firstn_all2; auto. rewrite map_length. lia.
    - destruct (Nat.ltb_spec (length (ui A)) (length (uv A))); [lia|]. replace (length (ui A) - length (uv A)) with 0 by lia. cbn. now rewrite app_nil_r.
  Qed.
  Lemma valid_z : forall A : UserCS, user_valid O' A -> zvalid (mkZ (up A) (u_s O' A) true (us A) (ui A) (length (ui A))).
  Proof.
    intros A []. split; cbn [zp zs zdef zstart zind znv]; auto; try lia. rewrite uv_ind. intros k Hk. apply uv_range. lia.
  Qed.
  Lemma start_pos : forall A : UserCS, user_valid O' A -> forall i, i <= up A -> (0 <= nth i (us A) 0)%Z.
  Proof. intros A [] i. induction i; intros H; [rewrite uv_first; lia|]. specialize (uv_mono i ltac:(lia)). specialize (IHi ltac:(lia)). lia. Qed.

  Lemma forallb_nth : forall l, (forall i, i < length l -> (0 <= nth i l 0)%Z) -> forallb (fun z => 0 <=? z)%Z l = true.
  Proof.
    intros l H. apply forallb_forall. intros x Hx. apply In_nth with (d := 0%Z) in Hx. destruct Hx as (i & Hi & <-). apply Z.leb_le. auto.
  Qed.
  Definition nat_cs (A : UserCS) (vals : list (T O)) : CS O := mkCS (up A) (u_s O' A) (map Z.to_nat (us A)) (map Z.to_nat (ui A)) vals.

  Lemma valid_l : forall R (k : CS O -> res R) chk (A : UserCS), user_valid O' A ->
    hif_factorize k chk A = k (nat_cs A (map cast (uv A))).
  Proof.
    intros R k chk A V. destruct (vals_l A V) as (EV & EN). pose proof (valid_z A V) as VZ. pose proof (start_pos A V) as SP. destruct V.
    unfold InputModel.hif_factorize, import, to_zero_based. rewrite (get_nth _ (us A) _ 0%Z) by lia. cbn [bind]. rewrite uv_first. cbn [Z.eqb bind].
    rewrite EV, EN. cbn [bind]. rewrite Nat2Z.id.
    assert (C : checked chk (mkZ (up A) (u_s O' A) true (us A) (ui A) (length (ui A))) = Ok tt).
    { unfold checked. destruct chk; auto. destruct (check_decides (mkZ (up A) (u_s O' A) true (us A) (ui A) (length (ui A)))) as [(E & _)|(_ & N)]; auto; cbn; try lia.
      - intros i Hi. cbn in *. apply uv_mono. lia.
      - contradiction. }
    rewrite C. cbn [bind zstart zind zp zs]. rewrite !forallb_nth; auto.
    - intros i Hi. apply uv_range. auto.
    - intros i Hi. apply SP. lia.
  Qed.
  Lemma valid_cs : forall A vals, user_valid O' A -> length vals = length (ui A) -> valid (nat_cs A vals) /\ tight (nat_cs A vals).
  Proof.
    intros A vals V L. split.
    - apply (zvalid_valid (mkZ (up A) (u_s O' A) true (us A) (ui A) (length (ui A))) O vals); auto. now apply valid_z.
    - destruct V. unfold tight, st, nat_cs. cbn [ind_start indices psize CSModel.vals]. rewrite !map_length, nth_us, uv_ind, Nat2Z.id. auto.
  Qed.
  Lemma stored_l : forall A, user_valid O' A -> forall i j v, i < up A ->
    stored (nat_cs A (map cast (uv A))) i j v <-> exists v', v = cast v' /\ user_stored O' A i j v'.
  Proof.
    intros A V i j v Hi. pose proof (start_pos A V) as SP. pose proof V as V'. destruct V'. unfold stored. rewrite rowl_in.
    assert (MO : forall a b, a <= b -> b <= up A -> (nth a (us A) 0 <= nth b (us A) 0)%Z).
    { intros a b H. induction H; intros; [lia|]. specialize (uv_mono m ltac:(lia)). specialize (IHle ltac:(lia)). lia. }
    unfold st, ix, vl, nat_cs. cbn [ind_start indices CSModel.vals]. rewrite !nth_us.
    pose proof (SP i ltac:(lia)). pose proof (SP (S i) ltac:(lia)). pose proof (MO (S i) (up A) ltac:(lia) ltac:(lia)) as ML.
    split.
    - intros (k & Hk & E & Ev). rewrite nth_ui in E. assert (Lk : k < length (uv A)) by lia.
      destruct (nth_error (uv A) k) as [v'|] eqn:EK; [|apply nth_error_None in EK; lia]. exists v'. split.
      + rewrite <- Ev. erewrite nth_error_nth; [reflexivity|]. apply map_nth_error. exact EK.
      + exists k. split; [lia|]. split; [|exact EK]. specialize (uv_range k ltac:(lia)). lia.
    - intros (v' & -> & k & Hk & E & Ev). exists k. split; [lia|]. rewrite nth_ui, E, Nat2Z.id. split; auto.
      apply (map_nth_error cast) in Ev. erewrite nth_error_nth; [reflexivity|exact Ev].
  Qed.
End L.

(** Whatever the arrays contain and whatever is done with the matrix afterwards:
    counting from 1 instead of from 0 makes no difference. *)
Theorem C51_index_base : forall (O O' : Ops) same cast jval R (kernel : CS O -> res R) chk (A : UserCS O'),
  1 <= length (u_start O' A) -> nth 0 (u_start O' A) 0%Z = 0%Z ->
  hif_factorize O' same cast jval kernel chk (one_based O' A) = hif_factorize O' same cast jval kernel chk A.
Proof. intros. now apply one_based_l. Qed.
Print Assumptions C51_index_base.

(** Any other base is rejected. *)
Theorem C51_other_base : forall (O O' : Ops) same cast jval R (kernel : CS O -> res R) chk (A : UserCS O'),
  1 <= length (u_start O' A) -> nth 0 (u_start O' A) 0%Z <> 0%Z -> nth 0 (u_start O' A) 0%Z <> 1%Z ->
  hif_factorize O' same cast jval kernel chk A = Err.
Proof.
  intros O O' same cast jval R k chk A L N0 N1. unfold hif_factorize, import, to_zero_based. rewrite (get_nth _ (u_start O' A) _ 0%Z) by lia. cbn [bind].
  destruct (Z.eqb_spec (nth 0 (u_start O' A) 0%Z) 0); [contradiction|]. destruct (Z.eqb_spec (nth 0 (u_start O' A) 0%Z) 1); [contradiction|]. reflexivity.
Qed.
Print Assumptions C51_other_base.

(** A well-formed matrix reaches the factorization as a valid matrix with the same sizes
    and, with every value converted, the same entries; the check does not object. *)
Theorem C51_same_matrix : forall (O O' : Ops) same cast jval R (kernel : CS O -> res R) chk (A : UserCS O'), user_valid O' A ->
  exists B, hif_factorize O' same cast jval kernel chk A = kernel B /\ valid B /\ tight B /\ psize B = u_p O' A /\ ssize B = u_s O' A /\
    forall i j v, i < u_p O' A -> (stored B i j v <-> exists v', v = cast v' /\ user_stored O' A i j v').
Proof.
  intros O O' same cast jval R k chk A V. exists (nat_cs O' A (map cast (u_vals O' A))). split; [now apply valid_l|].
  destruct (valid_cs O' A (map cast (u_vals O' A)) V) as (H1 & H2); [rewrite map_length; apply (uv_vals O' A V)|].
  split; [exact H1|]. split; [exact H2|]. split; [reflexivity|]. split; [reflexivity|]. intros. now apply stored_l.
Qed.
Print Assumptions C51_same_matrix.

(** With [params.check], arrays that are not a well-formed matrix are rejected, if the start
    array does not decrease and the value array has the length the start array says. *)
Theorem C51_check_rejects : forall (O O' : Ops) same cast jval R (kernel : CS O -> res R) (A : UserCS O'),
  length (u_start O' A) = u_p O' A + 1 -> nth 0 (u_start O' A) 0%Z = 0%Z ->
  (forall i, i < u_p O' A -> (nth i (u_start O' A) 0 <= nth (S i) (u_start O' A) 0)%Z) ->
  nth (u_p O' A) (u_start O' A) 0%Z = Z.of_nat (length (u_vals O' A)) ->
  length (u_ind O' A) <= length (u_vals O' A) -> ~ user_valid O' A ->
  hif_factorize O' same cast jval kernel true A = Err.
Proof.
  intros O O' same cast jval R k A L F M E LI NV. unfold hif_factorize, import, to_zero_based. rewrite (get_nth _ (u_start O' A) _ 0%Z) by lia. cbn [bind].
  rewrite F. cbn [Z.eqb bind].
  assert (EN : user_nnz O' A = Ok (Z.of_nat (length (u_vals O' A)))).
  { unfold user_nnz. rewrite !(get_nth _ (u_start O' A) _ 0%Z) by lia. cbn [bind]. rewrite F, L. replace (u_p O' A + 1 - 1) with (u_p O' A) by lia. rewrite E. f_equal. lia. }
  assert (EV : exists l, user_vals O' same cast jval A = Ok l).
  { unfold user_vals. rewrite EN. cbn [bind]. destruct (Z.ltb_spec (Z.of_nat (length (u_vals O' A))) 0); [lia|]. destruct same; [eauto|].
    rewrite Nat2Z.id. rewrite Nat.ltb_irrefl. eauto. }
  destruct EV as (l & EV). rewrite EV, EN. cbn [bind checked].
  rewrite Nat2Z.id. destruct (check_decides (mkZ (u_p O' A) (u_s O' A) true (u_start O' A) (u_ind O' A) (length (u_vals O' A)))) as [(_ & V)|(EC & _)].
  - reflexivity.
  - cbn. lia.
  - intros i Hi. cbn in *. apply M. lia.
  - exfalso. apply NV. destruct V. cbn in *. split; auto; try lia. intros j Hj. apply zv_range. lia.
  - rewrite EC. reflexivity.
Qed.
Print Assumptions C51_check_rejects.

(** The pointer interface, checked, in front of the factorization of C49: whatever the
    indices are, either an error or a usable preconditioner.  [n] is the size; [indptr] has
    [n+1] non-decreasing entries and the memory behind the other two pointers is as long as
    [indptr] says. *)
Theorem C51_checked_pointers_usable_partial : forall O O' same cast jval (G : Mag O) root shrink times bad big mdiv ceil_mul nth_el srt (opts : HOpts G)
    pre low go_dense mk_dense junkT junkN ji jv (rm : bool) n indptr indices vals,
  MagLaws G -> nth_element_ok (mle G) nth_el -> rearranges srt ->
  (forall k j, 1 <= k -> 1 <= low k j) -> (forall piv lvl, ceil_pos G ceil_mul (aL G times opts piv lvl)) -> (forall piv lvl, ceil_pos G ceil_mul (aU G times opts piv lvl)) ->
  pre_safe pre -> total_dense mk_dense ->
  1 <= n -> length indptr = n + 1 -> (forall i, i < n -> (nth i indptr 0 <= nth (S i) indptr 0)%Z) -> (nth 0 indptr 0 < nth n indptr 0)%Z ->
  (nth n indptr 0 - nth 0 indptr 0 <= Z.of_nat (length indices))%Z -> (nth n indptr 0 - nth 0 indptr 0 <= Z.of_nat (length vals))%Z ->
  exists A, of_pointers O' n n indptr indices vals = Ok A /\
  let F := hif_factorize O' same cast jval
    (factorize G root shrink times bad big mdiv ceil_mul nth_el srt opts pre low go_dense mk_dense junkT junkN ji jv rm) true A in
  F = Err \/
  exists precs, F = Ok precs /\ 1 <= length precs <= n /\
    forall b ld y w, length b = n -> length y = n -> compute_prec_work_space O precs <= length w ->
      (exists x w1, prec_solve O precs b ld y w = Ok (x, w1) /\ length x = n) /\
      (exists x w1, prec_solve_tran O precs b ld y w = Ok (x, w1) /\ length x = n) /\
      (exists x w1, prec_prod O precs b ld y w = Ok (x, w1) /\ length x = n) /\
      (exists x w1, prec_prod_tran O precs b ld y w = Ok (x, w1) /\ length x = n).
Proof.
  intros O O' same cast jval G root shrink times bad big mdiv ceil_mul nth_el srt opts pre low go_dense mk_dense junkT junkN ji jv rm n indptr indices vals
    ML NE SR HL CL CU HP HD Hn LP MP NZ LI LV.
  unfold of_pointers. destruct (Nat.ltb_spec (length indptr) (n + 1)); [lia|]. rewrite !(get_nth _ indptr _ 0%Z) by lia. cbn [bind].
  set (k := Z.to_nat (nth n indptr 0 - nth 0 indptr 0)%Z).
  destruct (Z.ltb_spec (nth n indptr 0%Z) (nth 0 indptr 0%Z)); [lia|]. destruct (Nat.ltb_spec (length indices) k); [lia|]. destruct (Nat.ltb_spec (length vals) k); [lia|].
  cbn [orb]. rewrite firstn_all2 by lia. set (A := mkUser O' n n indptr (firstn k indices) (firstn k vals)). exists A. split; auto. cbv zeta.
  set (ker := factorize G root shrink times bad big mdiv ceil_mul nth_el srt opts pre low go_dense mk_dense junkT junkN ji jv rm).
  assert (X : forall B, u_p O' B = n -> u_s O' B = n -> length (u_start O' B) = n + 1 -> (forall i, i < n -> (nth i (u_start O' B) 0 <= nth (S i) (u_start O' B) 0)%Z) ->
     nth 0 (u_start O' B) 0%Z = 0%Z -> nth n (u_start O' B) 0%Z = Z.of_nat k -> length (u_ind O' B) = k -> length (u_vals O' B) = k ->
     hif_factorize O' same cast jval ker true B = Err \/
     exists precs, hif_factorize O' same cast jval ker true B = Ok precs /\ 1 <= length precs <= n /\
    forall b ld y w, length b = n -> length y = n -> compute_prec_work_space O precs <= length w ->
      (exists x w1, prec_solve O precs b ld y w = Ok (x, w1) /\ length x = n) /\
      (exists x w1, prec_solve_tran O precs b ld y w = Ok (x, w1) /\ length x = n) /\
      (exists x w1, prec_prod O precs b ld y w = Ok (x, w1) /\ length x = n) /\
      (exists x w1, prec_prod_tran O precs b ld y w = Ok (x, w1) /\ length x = n)).
  { intros B B1 B2 B3 B4 B5 B6 B7 B8.
    assert (DV : user_valid O' B \/ hif_factorize O' same cast jval ker true B = Err).
    { destruct (check_decides (mkZ (u_p O' B) (u_s O' B) true (u_start O' B) (u_ind O' B) (length (u_vals O' B)))) as [(_ & V)|(_ & NV)]; cbn; try lia.
      - intros i Hi. cbn in *. apply B4. lia.
      - left. destruct V. cbn in *. split; auto; try lia. + rewrite B1, B6. now rewrite B7. + intros j Hj. apply zv_range. rewrite B1, B6. lia.
      - right. apply C51_check_rejects; rewrite ?B1, ?B6, ?B8; auto; try lia.
        intros V. apply NV. pose proof (valid_z O' B V) as VZ. rewrite B7 in VZ. now rewrite B8. }
    destruct DV as [V|E]; [|auto].
    destruct (valid_cs O' B (map cast (u_vals O' B)) V) as (V1 & V2); [rewrite map_length; lia|].
    rewrite (valid_l O' same cast jval _ ker true B V).
    destruct (C49_usable_partial O G root shrink times bad big mdiv ceil_mul nth_el srt opts pre low go_dense mk_dense junkT junkN ji jv rm
      (nat_cs O' B (map cast (u_vals O' B))) n ML NE SR HL CL CU HP HD V1 V2 B1 B2 Hn) as [E|(precs & E & LE & H4)].
    - unfold nnz_of, st, nat_cs. cbn [psize ind_start]. rewrite nth_us, B1, B6, Nat2Z.id. lia.
    - left. exact E.
    - right. exists precs. split; [exact E|]. split; auto. intros b ld y w Lb Ly Lw.
      destruct (H4 b ld y w y w Lb Ly Ly Lw Lw) as ((x1 & w1 & _ & E1 & _ & L1) & (x2 & w2 & _ & E2 & _ & L2) & (x3 & w3 & _ & E3 & _ & L3) & (x4 & w4 & _ & E4 & _ & L4)).
      split; [eauto|]. split; [eauto|]. split; eauto. }
  destruct (Z.eq_dec (nth 0 indptr 0%Z) 0) as [Z0|Z0].
  { apply X; cbn; auto; try (rewrite firstn_length; lia). lia. }
  destruct (Z.eq_dec (nth 0 indptr 0%Z) 1) as [Z1|Z1].
  2:{ left. apply C51_other_base; auto. cbn. lia. }
  set (B := mkUser O' n n (map (fun z => z - 1)%Z indptr) (map (fun z => z - 1)%Z (firstn k indices)) (firstn k vals)).
  assert (PS : forall i, i < length indptr -> nth i (map (fun z => z - 1)%Z indptr) 0%Z = (nth i indptr 0 - 1)%Z).
  { intros i Hi. rewrite nth_indep with (d' := (0 - 1)%Z) by (rewrite map_length; lia). now rewrite (map_nth (fun z => z - 1)%Z). }
  assert (EA : A = one_based O' B).
  { unfold one_based, B, A. cbn. f_equal; rewrite map_map; rewrite <- map_id at 1; apply map_ext; intros; lia. }
  rewrite EA, one_based_l.
  - apply X; cbn; auto; rewrite ?map_length; auto; try (rewrite firstn_length; lia); try (intros i Hi); rewrite ?PS by lia; try lia. specialize (MP i Hi). lia.
  - cbn. rewrite map_length. lia.
  - cbn. rewrite PS by lia. lia.
Qed.
Print Assumptions C51_checked_pointers_usable_partial.

(** With a value type of its own, a matrix with more values than entries (which the check of
    the library accepts) makes the conversion write behind the end of its array. *)
Definition ex_user : UserCS OQ := mkUser OQ 2 2 [0;1;2]%Z [0;1]%Z (map qz [3;4]%Z).
Definition ex_long : UserCS OQ := mkUser OQ 2 2 [0;1;2]%Z [0;1]%Z (map qz [3;4;5]%Z).
Theorem C51_conversion_overflow_refuted :
  check_validity (mkZ 2 2 true (u_start OQ ex_long) (u_ind OQ ex_long) (length (u_vals OQ ex_long))) = Ok tt /\
  hif_factorize (O:=OQ) OQ false (fun x => x) (fun _ => qz 0) (fun A => Ok A) true ex_long = UB.
Proof. vm_compute. auto. Qed.
Print Assumptions C51_conversion_overflow_refuted.

(** A value array that is too short is rejected by [check_validity] but not by [factorize]
    with [params.check]: the check only sees a view of the expected length, and whatever then reads the second
    value reads behind the end of the caller's array. *)
Definition ex_short : UserCS OQ := mkUser OQ 2 2 [0;1;2]%Z [0;1]%Z (map qz [3]%Z).
Theorem C51_short_values_refuted :
  check_validity (mkZ 2 2 true (u_start OQ ex_short) (u_ind OQ ex_short) (length (u_vals OQ ex_short))) = Err /\
  hif_factorize (O:=OQ) OQ true (fun x => x) (fun _ => qz 0) (fun A => get (vals A) 1) true ex_short = UB.
Proof. vm_compute. auto. Qed.
Print Assumptions C51_short_values_refuted.

(** ** Concrete cases *)
Example C51_hyps : user_valid OQ ex_user.
Proof.
  split; try reflexivity.
  - intros [|[|i]] Hi; cbn in *; lia.
  - intros [|[|i]] k l Hi; cbn in *; intros; lia.
  - intros [|[|k]] Hk; cbn in *; lia.
Qed.
Example C51_run :
  let f A := hif_factorize (O:=OQ) OQ false (fun x => Qcplus x x) (fun _ => qz 0) (fun B => Ok (ind_start B, indices B, map this (vals B))) true A in
  f ex_user = Ok ([0;1;2], [0;1], [6%Q; 8%Q]) /\ f (one_based OQ ex_user) = f ex_user /\
  f (mkUser OQ 2 2 [2;3;4]%Z [2;3]%Z (map qz [3;4]%Z)) = Err /\
  f (mkUser OQ 2 2 [0;1;2]%Z [0;2]%Z (map qz [3;4]%Z)) = Err.
Proof. vm_compute. auto. Qed.
Example C51_pointers_run :
  match of_pointers OQ 4 4 [1;4;7;9;11]%Z (map (fun k => Z.of_nat k + 1)%Z (indices ex_crs)) (vals ex_crs) with
  | Ok A => match hif_factorize (O:=OQ) OQ true (fun x => x) (fun _ => qz 0) (ex_factorize (fun _ _ _ => true) (ex_opts (qz 0) (qz 0) (qz 100)) true) true A with
            | Ok l => map (fun P => (pm P, pn P)) l | _ => [] end
  | _ => [] end = [(3, 4)].
Proof. vm_compute. reflexivity. Qed.
