(** * Properties C39 and C49 with the default solver of the last level. *)
From Coq Require Import List Arith Lia Bool ZArith QArith Qcanon Qround.
From Verif Require Import Base Scalar Spec CSModel CSSpec CSProofs ConvModel ConvSpec Mag VecModel VecSpec PruneModel
  CroutModel PivotSpec PropCS SchurModel PrecModel PrecSpec LevelMath LinAlg FactorModel FactorSpec PropConv PropVec PropCrout PropSchur PropFactor
  DenseModel DenseSpec DenseProofs1 PropDense LastModel LastProofs.
Import ListNotations.
Close Scope Q_scope. Close Scope Qc_scope. Open Scope nat_scope.

(** ** C39 with QRCP: if LAPACK's factorization of the last Schur complement meets its contract, then
    [solve] with full rank (or with the rank QRCP found, when that is full) is exact, and so
    are the other three operations. *)
Theorem C39_qrcp_partial : forall O (G : Mag O) root shrink times bad big mdiv ceil_mul nth_el srt (opts : HOpts G)
    pre low go_dense junkT junkN ji jv (rm : bool) (A : CS O) n is0 mag fmul laic1 jd diag_tol cond_def cond_opt geqp3 ormqr,
  let mk_dense := mk_qrcp O is0 mag fmul laic1 jd diag_tol cond_def cond_opt geqp3 ormqr in
  FieldLaws O -> MagLaws G -> nth_element_ok (mle G) nth_el -> rearranges srt -> (forall x, is0 x = true <-> x = t0 O) ->
  (forall k j, 1 <= k -> 1 <= low k j) -> (forall kappa_d, bad kappa_d (t0 O) = true) ->
  pre_total pre -> dropping_off G shrink times mdiv ceil_mul opts n ->
  valid A -> tight A -> psize A = n -> ssize A = n -> 1 <= n -> injective_on n (matof rm A) ->
  exists precs k D,
    factorize G root shrink times bad big mdiv ceil_mul nth_el srt opts pre low go_dense mk_dense junkT junkN ji jv rm A = Ok precs /\
    k <= n /\
    (1 <= k -> length D = k * k /\ injective_on k (col_mat k D) /\ exists l P, precs = l ++ [P] /\ pdense P = Some (mk_dense k D)) /\
    forall Q ld, (1 <= k -> geqp3_ok k (col_mat k D) (fst (geqp3 k D)) (snd (geqp3 k D)) Q /\ ormqr_ok k Q (ormqr k D)) ->
    k <= ld \/ ld = 0 /\ ds_rank (mk_dense k D) = k ->
    forall b y w, length b = n -> length y = n -> compute_prec_work_space O precs <= length w ->
      (exists x w', prec_solve O precs b ld y w = Ok (x, w') /\ length x = n /\ veq n (mvec n (matof rm A) (v_ x)) (v_ b)) /\
      (exists x w', prec_solve_tran O precs b ld y w = Ok (x, w') /\ length x = n /\ veq n (mvec n (madj (matof rm A)) (v_ x)) (v_ b)) /\
      (exists x w', prec_prod O precs b ld y w = Ok (x, w') /\ length x = n /\ veq n (v_ x) (mvec n (matof rm A) (v_ b))) /\
      (exists x w', prec_prod_tran O precs b ld y w = Ok (x, w') /\ length x = n /\ veq n (v_ x) (mvec n (madj (matof rm A)) (v_ b))).
Proof.
  intros O G root shrink times bad big mdiv ceil_mul nth_el srt opts pre low go_dense junkT junkN ji jv rm A n is0 mag fmul laic1 jd diag_tol cond_def cond_opt geqp3 ormqr
    mk FL ML NE SR Z HL HB HP HO VA TA PA SA Hn HI.
  destruct (C39_without_dropping_partial O G root shrink times bad big mdiv ceil_mul nth_el srt opts pre low go_dense mk junkT junkN ji jv rm A n
    FL ML NE SR HL HB HP HO VA TA PA SA Hn HI) as (precs & k & D & E & K1 & K2 & H).
  exists precs, k, D. split; auto. split; auto. split; auto. intros Q ld HC Hld. apply H. intros Hk. destruct (HC Hk) as (GQ & OQ). destruct (K2 Hk) as (_ & IC & _).
  exact (qrcp_exact_l O is0 mag fmul laic1 jd diag_tol cond_def cond_opt geqp3 ormqr FL Z k D Q Hk GQ OQ IC ld Hld).
Qed.
Print Assumptions C39_qrcp_partial.

(** ** C49 with QRCP, for any arithmetic whose divisions do not trap: from LAPACK only arrays of
    the right sizes and a permutation of the columns are needed. *)
Theorem C49_qrcp_partial : forall O (G : Mag O) root shrink times bad big mdiv ceil_mul nth_el srt (opts : HOpts G)
    pre low go_dense junkT junkN ji jv (rm : bool) (A : CS O) n mag fmul laic1 jd diag_tol cond_def cond_opt geqp3 ormqr,
  let mk_dense := mk_qrcp O (fun _ => false) mag fmul laic1 jd diag_tol cond_def cond_opt geqp3 ormqr in
  (forall k D, 1 <= k -> length D = k * k -> length (fst (geqp3 k D)) = k * k /\ good_pivots k (snd (geqp3 k D)) /\
     forall tr r v, r <= k -> length v = k -> length (ormqr k D tr r v) = k) ->
  MagLaws G -> nth_element_ok (mle G) nth_el -> rearranges srt ->
  (forall k j, 1 <= k -> 1 <= low k j) -> (forall piv lvl, ceil_pos G ceil_mul (aL G times opts piv lvl)) -> (forall piv lvl, ceil_pos G ceil_mul (aU G times opts piv lvl)) ->
  pre_safe pre ->
  valid A -> tight A -> psize A = n -> ssize A = n -> 1 <= n -> 1 <= nnz_of A ->
  let F := factorize G root shrink times bad big mdiv ceil_mul nth_el srt opts pre low go_dense mk_dense junkT junkN ji jv rm A in
  F = Err \/
  exists precs, F = Ok precs /\ 1 <= length precs <= n /\
    forall b ld y w y' w', length b = n -> length y = n -> length y' = n ->
      compute_prec_work_space O precs <= length w -> compute_prec_work_space O precs <= length w' ->
      (exists x w1 w2, prec_solve O precs b ld y w = Ok (x, w1) /\ prec_solve O precs b ld y' w' = Ok (x, w2) /\ length x = n) /\
      (exists x w1 w2, prec_solve_tran O precs b ld y w = Ok (x, w1) /\ prec_solve_tran O precs b ld y' w' = Ok (x, w2) /\ length x = n) /\
      (exists x w1 w2, prec_prod O precs b ld y w = Ok (x, w1) /\ prec_prod O precs b ld y' w' = Ok (x, w2) /\ length x = n) /\
      (exists x w1 w2, prec_prod_tran O precs b ld y w = Ok (x, w1) /\ prec_prod_tran O precs b ld y' w' = Ok (x, w2) /\ length x = n).
Proof.
  intros O G root shrink times bad big mdiv ceil_mul nth_el srt opts pre low go_dense junkT junkN ji jv rm A n mag fmul laic1 jd diag_tol cond_def cond_opt geqp3 ormqr
    mk LP ML NE SR HL CL CU HP VA TA PA SA Hn HZ.
  apply C49_usable_partial; auto.
  exact (qrcp_total_l O (fun _ => false) mag fmul laic1 jd diag_tol cond_def cond_opt geqp3 ormqr (fun _ => eq_refl) LP).
Qed.
Print Assumptions C49_qrcp_partial.

(** ** A run: [ex_crs] with one level and a last Schur complement of size 1. *)
Definition ex_geqp3 (k : nat) (D : list (T OQ)) : list (T OQ) * list nat := (D, seq 1 k).
Definition ex_ormqr (k : nat) (D : list (T OQ)) (tr : bool) (r : nat) (v : list (T OQ)) : list (T OQ) := v.
Definition ex_mk := mk_qrcp OQ is0q magq Qmult laicq (t0 OQ) (1 # 8) (1000 # 1) (20 # 1) ex_geqp3 ex_ormqr.
Definition ex_factorize_qr (rm : bool) (A : CS OQ) : res (list (Prec OQ)) :=
  factorize (O:=OQ) MQ (fun x _ => x) ex_shrink ex_times ex_badpiv (fun _ => true) Qcdiv ceilQ (sort_select MQ) (fun _ l => l) (ex_opts (qz 0) (qz 0) (qz 100))
    (fun _ => no_pre 7) (fun z n => Nat.max 1 (ex_low z n)) (fun _ _ _ => true) ex_mk (fun _ _ _ => qz 9) (fun _ _ _ => 7) 5 (qz 8) rm A.
Example C39_qrcp_run : let r := ex_factorize_qr true ex_crs in
  match r with Ok l => map (fun P => (pm P, pn P, match pdense P with Some d => ds_rank d | None => 0 end)) l | _ => [] end = [(3, 4, 1)] /\
  ex_mul ex_crs (ex_solve r ex_b) = map this ex_b.
Proof. vm_compute. auto. Qed.
Lemma one_term : forall a : Qc, a = Qcplus (Q2Qc 0) (Qcmult (Q2Qc 1) a).
Proof. intros. ring. Qed.
Example C39_qrcp_hyps : (forall x, is0q x = true <-> x = t0 OQ) /\
  (forall D, length D = 1 -> exists Q, geqp3_ok (O:=OQ) 1 (col_mat 1 D) (fst (ex_geqp3 1 D)) (snd (ex_geqp3 1 D)) Q /\ ormqr_ok 1 Q (ex_ormqr 1 D)).
Proof.
  split.
  { intros x. unfold is0q. rewrite Qeq_bool_iff. split; [intros H; apply Qc_is_canon; exact H|intros ->; reflexivity]. }
  intros D LD. exists (fun _ _ => t1 OQ). split; split.
  - exact LD.
  - split; [reflexivity|]. split; [intros [|i] Hi; cbn; lia|]. intros [|i] [|j] Hi Hj; cbn; lia.
  - intros [|i] [|j] Hi Hj; try lia. cbn. unfold col_mat, upper, cm, piv. cbn. apply one_term.
  - intros [|i] [|j] Hi Hj; try lia. apply Qc_is_canon. vm_compute. reflexivity.
  - intros [|i] [|j] Hi Hj; try lia. apply Qc_is_canon. vm_compute. reflexivity.
  - intros tr r v _ L. exact L.
  - intros r v [|j] Hr L Hj; try lia. unfold ex_ormqr, v_. cbn. apply one_term.
  - intros r v [|i] Hr L Hi HZ; try lia. unfold ex_ormqr. destruct r as [|[|r]]; [|unfold v_; cbn; apply one_term|lia].
    rewrite HZ by lia. reflexivity.
Qed.
Example C49_qrcp_hyps : forall k D, 1 <= k -> length D = k * k -> length (fst (ex_geqp3 k D)) = k * k /\ good_pivots k (snd (ex_geqp3 k D)) /\
     forall tr r v, r <= k -> length v = k -> length (ex_ormqr k D tr r v) = k.
Proof.
  intros k D Hk LD. split; [exact LD|]. split; [|intros tr r v _ L; exact L]. cbn [ex_geqp3 snd]. split; [apply seq_length|]. split.
  - intros i Hi. rewrite seq_nth by auto. lia.
  - intros i j Hi Hj. rewrite !seq_nth by auto. lia.
Qed.
