(** * Properties C39, C49 and C32: the whole factorization. *)
From Coq Require Import List Arith Lia Bool ZArith QArith Qcanon Qround.
From Verif Require Import Base Scalar Spec CSModel CSSpec CSProofs ConvModel ConvSpec ConvProofs Mag VecModel VecSpec PruneModel MrhsProofs
  CroutModel PivotModel PivotSpec PropCS SchurModel PrecModel PrecSpec LevelMath LinAlg PrecProofs StaleProofs FactorModel FactorSpec PropConv PropVec PropCrout PropSchur
  FactorProofs1 FactorProofs2 FactorProofs3 FactorProofs4 FactorProofs5.
Import ListNotations.
Close Scope Q_scope. Close Scope Qc_scope. Open Scope nat_scope.

(** ** C39.  With dropping disabled and an exact final dense solver, for every
    nonsingular matrix in either storage, every preprocessing, every threshold on
    pivots and condition estimates (so every history of deferrals), every rule for
    closing the hierarchy (so any number of levels) and any contents of the buffers:
    the factorization succeeds; the matrix [D] given to the dense solver of the last
    level (if that is not empty) is nonsingular, and if the solver is exact on it then [solve] solves [A x = b] exactly, [multiply] is the
    product with [A], and the transposed versions belong to the adjoint.
    Pivoting may be off, on or automatic.  Missing for the full property: the symmetric
    modes. *)
Theorem C39_without_dropping_partial : forall O (G : Mag O) root shrink times bad big mdiv ceil_mul nth_el srt (opts : HOpts G)
    pre low go_dense mk_dense junkT junkN ji jv (rm : bool) (A : CS O) n,
  FieldLaws O -> MagLaws G -> nth_element_ok (mle G) nth_el -> rearranges srt ->
  (forall k j, 1 <= k -> 1 <= low k j) -> (forall kappa_d, bad kappa_d (t0 O) = true) ->
  pre_total pre -> dropping_off G shrink times mdiv ceil_mul opts n ->
  valid A -> tight A -> psize A = n -> ssize A = n -> 1 <= n -> injective_on n (matof rm A) ->
  exists precs k D,
    factorize G root shrink times bad big mdiv ceil_mul nth_el srt opts pre low go_dense mk_dense junkT junkN ji jv rm A = Ok precs /\
    k <= n /\
    (1 <= k -> length D = k * k /\ injective_on k (col_mat k D) /\ exists l P, precs = l ++ [P] /\ pdense P = Some (mk_dense k D)) /\
    forall ld, (1 <= k -> exact_at ld k (col_mat k D) (mk_dense k D)) ->
    forall b y w, length b = n -> length y = n -> compute_prec_work_space O precs <= length w ->
      (exists x w', prec_solve O precs b ld y w = Ok (x, w') /\ length x = n /\ veq n (mvec n (matof rm A) (v_ x)) (v_ b)) /\
      (exists x w', prec_solve_tran O precs b ld y w = Ok (x, w') /\ length x = n /\ veq n (mvec n (madj (matof rm A)) (v_ x)) (v_ b)) /\
      (exists x w', prec_prod O precs b ld y w = Ok (x, w') /\ length x = n /\ veq n (v_ x) (mvec n (matof rm A) (v_ b))) /\
      (exists x w', prec_prod_tran O precs b ld y w = Ok (x, w') /\ length x = n /\ veq n (v_ x) (mvec n (madj (matof rm A)) (v_ b))).
Proof.
  intros O G root shrink times bad big mdiv ceil_mul nth_el srt opts pre low go_dense mk_dense junkT junkN ji jv rm A n
    FL ML NE SR HL HB HP HO VA TA PA SA Hn HI. rewrite <- PA in HO, HI, Hn.
  destruct (kernel_exact G root shrink times bad big mdiv ceil_mul nth_el srt opts pre low go_dense mk_dense junkT junkN ji jv ML NE SR FL HP HL HB
    (psize A) HO (S (S (psize A))) 1 false rm A [] []) as (precs & k & D & E & F & R & K1 & K2 & H12); auto; try lia.
  exists precs, k, D. split; [exact E|]. split; [lia|]. split; [exact K2|]. intros ld HD b y w Lb Ly Lw. rewrite <- fix_work in Lw. rewrite PA in H12. destruct (H12 ld HD) as (H1 & H2).
  split; [|split; [|split]].
  - destruct (wp_inv _ _ _ (prec_solve_wp O FL _ n ld _ b y w H1 H2 Lb Ly Lw)) as ([x w'] & E' & L' & _ & V). rewrite fix_solve in E' by auto. eauto.
  - destruct (wp_inv _ _ _ (prec_solve_tran_wp O FL _ n ld _ b y w H1 R H2 Lb Ly Lw)) as ([x w'] & E' & L' & _ & V). rewrite fix_solve_tran in E' by auto. eauto.
  - destruct (wp_inv _ _ _ (prec_prod_wp O FL _ n ld _ b y w H1 H2 Lb Ly Lw)) as ([x w'] & E' & L' & _ & V). rewrite fix_prod in E' by auto. eauto.
  - destruct (wp_inv _ _ _ (prec_prod_tran_wp O FL _ n ld _ b y w H1 R H2 Lb Ly Lw)) as ([x w'] & E' & L' & _ & V). rewrite fix_prod_tran in E' by auto. eauto.
Qed.
Print Assumptions C39_without_dropping_partial.

(** ** C49.  Whatever is dropped, whatever the numbers do (no law of arithmetic is
    used, only that magnitudes are totally ordered): for every nonempty square input
    the factorization either raises an error in the preprocessing or returns at most
    [n] levels, and then each of the four operations succeeds on every right-hand side
    with the advertised work space; no out-of-range access happens anywhere, and the
    result depends on the right-hand side only. *)
Theorem C49_usable_partial : forall O (G : Mag O) root shrink times bad big mdiv ceil_mul nth_el srt (opts : HOpts G)
    pre low go_dense mk_dense junkT junkN ji jv (rm : bool) (A : CS O) n,
  MagLaws G -> nth_element_ok (mle G) nth_el -> rearranges srt ->
  (forall k j, 1 <= k -> 1 <= low k j) -> (forall piv lvl, ceil_pos G ceil_mul (aL G times opts piv lvl)) -> (forall piv lvl, ceil_pos G ceil_mul (aU G times opts piv lvl)) ->
  pre_safe pre -> total_dense mk_dense ->
  valid A -> tight A -> psize A = n -> ssize A = n -> 1 <= n -> 1 <= nnz_of A ->
  let F := factorize G root shrink times bad big mdiv ceil_mul nth_el srt opts pre low go_dense mk_dense junkT junkN ji jv rm A in
  F = Err \/
  exists precs, F = Ok precs /\ 1 <= length precs <= n /\
    forall b ld y w y' w', length b = n -> length y = n -> length y' = n ->
      compute_prec_work_space O precs <= length w -> compute_prec_work_space O precs <= length w' ->
      (exists x w1 w2, prec_solve O precs b ld y w = Ok (x, w1) /\ prec_solve O precs b ld y' w' = Ok (x, w2) /\ length x = n) /\
      (exists x w1 w2, prec_solve_tran O precs b ld y w = Ok (x, w1) /\ prec_solve_tran O precs b ld y' w' = Ok (x, w2) /\ length x = n) /\
      (exists x w1 w2, prec_prod O precs b ld y w = Ok (x, w1) /\ prec_prod O precs b ld y' w' = Ok (x, w2) /\ length x = n) /\
      (exists x w1 w2, prec_prod_tran O precs b ld y w = Ok (x, w1) /\ prec_prod_tran O precs b ld y' w' = Ok (x, w2) /\ length x = n).
Proof.
  intros O G root shrink times bad big mdiv ceil_mul nth_el srt opts pre low go_dense mk_dense junkT junkN ji jv rm A n
    ML NE SR HL CL CU HP HD VA TA PA SA Hn HZ F. rewrite <- PA in Hn.
  destruct (kernel_safe G root shrink times bad big mdiv ceil_mul nth_el srt opts pre low go_dense mk_dense junkT junkN ji jv ML NE SR HP HD HL CL CU
    (S (S (psize A))) 1 false rm A [] []) as [E|(precs & E & FO & LN & H1 & H2)]; auto; try lia. rewrite PA in H1, H2, LN, Hn.
  right. exists precs. split; [exact E|]. split.
  { split; auto. destruct precs; [destruct (H1 0 false)|cbn; lia]. }
  intros b ld y w y' w' Lb Ly Ly' Lw Lw'. rewrite <- fix_work in Lw, Lw'.
  split; [|split; [|split]].
  - destruct (prec_solve_stale O _ n ld b y y' w w' (H1 ld false) Lb Ly Ly' Lw Lw') as ([x w1] & [x2 w2] & E1 & E2 & R1 & R2 & _).
    rewrite fix_solve in E1, E2 by auto. cbn [fst] in *. subst x2. eauto 6.
  - destruct (prec_solve_tran_stale O _ n ld b y y' w w' (H1 ld true) Lb Ly Ly' Lw Lw') as ([x w1] & [x2 w2] & E1 & E2 & R1 & R2 & _).
    rewrite fix_solve_tran in E1, E2 by auto. cbn [fst] in *. subst x2. eauto 6.
  - destruct (prec_prod_stale O _ n ld b y y' w w' (H2 ld false) Lb Ly Ly' Lw Lw') as ([x w1] & [x2 w2] & E1 & E2 & R1 & R2 & _).
    rewrite fix_prod in E1, E2 by auto. cbn [fst] in *. subst x2. eauto 6.
  - destruct (prec_prod_tran_stale O _ n ld b y y' w w' (H2 ld true) Lb Ly Ly' Lw Lw') as ([x w1] & [x2 w2] & E1 & E2 & R1 & R2 & _).
    rewrite fix_prod_tran in E1, E2 by auto. cbn [fst] in *. subst x2. eauto 6.
Qed.
Print Assumptions C49_usable_partial.

(** A matrix that is not square is rejected before anything else happens. *)
Theorem C49_nonsquare_rejected : forall O (G : Mag O) root shrink times bad big mdiv ceil_mul nth_el srt (opts : HOpts G)
    pre low go_dense mk_dense junkT junkN ji jv (rm : bool) (A : CS O), psize A <> ssize A ->
  factorize G root shrink times bad big mdiv ceil_mul nth_el srt opts pre low go_dense mk_dense junkT junkN ji jv rm A = Err.
Proof. intros. unfold factorize. cbn [factorize_kernel]. destruct (Nat.eqb_spec (psize A) (ssize A)); [contradiction|reflexivity]. Qed.
Print Assumptions C49_nonsquare_rejected.

(** ** The hypotheses can be met *)

(** The option to skip the preprocessing satisfies both conditions on it. *)
Lemma no_pre_ok : forall O ji, FieldLaws O -> pre_total (O:=O) (fun _ => no_pre ji) /\ pre_safe (O:=O) (fun _ => no_pre ji).
Proof.
  intros O ji FL.
  assert (H : forall n (A_ccs A_crs : CS O), psize A_ccs = n -> psize A_crs = n ->
    exists s t p q m2, no_pre ji A_ccs A_crs = Ok (s, t, p, q, m2) /\ pre_good n s t p q m2).
  { intros n A_ccs A_crs H1 H2. unfold no_pre. rewrite H1, H2.
    destruct (C14_make_eye n (mkBP (repeat ji n) (repeat ji n))) as (E & I); [apply repeat_length|apply repeat_length|].
    rewrite E. cbn [bind]. do 5 eexists. split; [reflexivity|].
    assert (R1 : forall i, i < n -> nth i (repeat (t1 O) n) (t0 O) = t1 O) by (intros; now apply nth_repeat_any).
    split; auto; try apply repeat_length; intros i Hi; rewrite R1 by auto; try apply (fl_one O FL); apply conj_1, (fl_ring O FL). }
  split; [intros lvl n A_ccs A_crs _ _ P1 _ P2 _ _ _|intros lvl n A_ccs A_crs _ _ P1 _ P2 _ _; right]; now apply H.
Qed.

(** Gaussian elimination is an exact dense solver. *)
Definition gauss {O} (z : T O -> bool) (k : nat) (D : list (T O)) : Dense O :=
  let C i j := nth (i + j * k) D (t0 O) in
  mkDense O (fun _ tr y => Ok (map (gsolve O z k (if tr : bool then madj C else C) (v_ y)) (seq 0 k)))
          (fun _ tr y => Ok (map (mvec k (if tr : bool then madj C else C) (v_ y)) (seq 0 k))) k.
Lemma v_map_seq : forall O k (f : nat -> T O), veq k (v_ (map f (seq 0 k))) f.
Proof. intros O k f i Hi. unfold v_. rewrite (nth_indep _ _ (f 0)) by (rewrite map_length, seq_length; auto). rewrite map_nth, seq_nth; auto. Qed.
Lemma gauss_ok : forall O z, FieldLaws O -> (forall x, z x = true <-> x = t0 O) -> (forall n ld, exact_dense n ld (gauss (O:=O) z)) /\ total_dense (gauss (O:=O) z).
Proof.
  intros O z FL Z. split.
  - intros n ld k D _ _ LD HI y Ly. unfold gauss. cbn [ds_solve ds_mul].
    change (fun i j => nth (i + j * k) D (t0 O)) with (col_mat k D). set (C := col_mat k D) in *. set (C' := C).
    assert (E1 : meq k k C C') by (intros i j Hi Hj; reflexivity).
    assert (E2 : meq k k (madj C) (madj C')) by (intros i j Hi Hj; unfold madj; rewrite E1; auto).
    assert (I1 : injective_on k C') by (eapply injective_ext; eauto).
    assert (I2 : injective_on k (madj C')) by (apply (adj_inj O z FL Z); auto).
    assert (X : forall (M M' : nat -> nat -> T O) x x' i, i < k -> meq k k M M' -> veq k x x' -> mvec k M x i = mvec k M' x' i).
    { intros M M' x x' i Hi H1 H2. unfold mvec. apply sum_ext. intros j Hj. rewrite H1, H2; auto. }
    repeat split; eexists; (split; [reflexivity|]); (split; [now rewrite map_length, seq_length|]); intros i Hi.
    + transitivity (mvec k C' (gsolve O z k C' (v_ y)) i); [apply X; auto; apply v_map_seq|apply (gsolve_l O z FL Z k C' (v_ y) I1 i Hi)].
    + transitivity (mvec k (madj C') (gsolve O z k (madj C') (v_ y)) i); [apply X; auto; apply v_map_seq|apply (gsolve_l O z FL Z k (madj C') (v_ y) I2 i Hi)].
    + rewrite v_map_seq by auto. symmetry. apply X; auto. intros ? ?; auto.
    + rewrite v_map_seq by auto. symmetry. apply X; auto. intros ? ?; auto.
  - intros k D ld tr y _ _ Ly. unfold gauss. cbn [ds_solve ds_mul]. split; eexists; (split; [reflexivity|now rewrite map_length, seq_length]).
Qed.

(** A run over the rationals: the second pivot of [ex_crs] vanishes and is deferred. *)
Definition ex_opts_p (pv : pivoting) (tau_L tau_U alpha : Qc) : HOpts MQ := mkHOpts MQ tau_L tau_U (qz 1000) (qz 1000) alpha alpha true true pv (qz 1).
Definition ex_opts := ex_opts_p PivOff.
Definition ex_badpiv (kd a : Qc) : bool := isz a || qlt kd (qabs (Qcdiv (qz 1) a)).
Definition ex_times (x : Qc) (k : nat) : Qc := Qcmult x (qz (Z.of_nat k)).
Definition ex_shrink (x : Qc) (lvl : nat) : Qc := Qcdiv x (qz (Z.min 10 (10 ^ Z.of_nat (lvl - 1)))).
Definition ex_low (z n : nat) : nat := Z.to_nat (Qceiling (Qdiv (Qmult (85 # 100) (inject_Z (Z.of_nat z))) (inject_Z (Z.of_nat n)))).
Definition ex_factorize (go_dense : nat -> nat -> nat -> bool) (opts : HOpts MQ) (rm : bool) (A : CS OQ) : res (list (Prec OQ)) :=
  factorize (O:=OQ) MQ (fun x _ => x) ex_shrink ex_times ex_badpiv (fun _ => true) Qcdiv ceilQ (sort_select MQ) (fun _ l => l) opts
    (fun _ => no_pre 7) (fun z n => Nat.max 1 (ex_low z n)) go_dense (gauss (O:=OQ) isz) (fun _ _ _ => qz 9) (fun _ _ _ => 7) 5 (qz 8) rm A.
Definition ex_solve (r : res (list (Prec OQ))) (b : list Qc) : list Q :=
  match r with
  | Ok P => match prec_solve OQ P b 0 (repeat (qz 3) (length b)) (repeat (qz 4) 40) with Ok (x, _) => map this x | _ => [] end
  | _ => []
  end.
Definition ex_b := map qz [1;2;3;4]%Z.
Definition ex_mul (A : CS OQ) (x : list Q) : list Q := map (fun i => this (mvec (O:=OQ) 4 (crs_mat A) (v_ (O:=OQ) (map Q2Qc x)) i)) (seq 0 4).
Lemma left_inv_inj : forall O, RingLaws O -> forall n (B A : nat -> nat -> T O),
  meq n n (Spec.mmul n B A) mid -> injective_on n A.
Proof.
  intros O RL n B A H x y E i Hi.
  assert (X : forall v, v i = mvec n B (mvec n A v) i).
  { intros v. rewrite <- (mvec_mmul O RL). rewrite <- (mvec_mid O RL n v i) at 1 by auto. unfold mvec. apply sum_ext. intros j Hj. rewrite H; auto. }
  rewrite (X x), (X y). unfold mvec at 1 3. apply sum_ext. intros j Hj. rewrite E; auto.
Qed.
Example C39_hyps : FieldLaws OQ /\ MagLaws MQ /\ nth_element_ok (mle MQ) (sort_select MQ) /\ rearranges (O:=OQ) (fun _ l => l) /\
  (forall kd, ex_badpiv kd (qz 0) = true) /\ pre_total (O:=OQ) (fun _ => no_pre 7) /\ (forall n ld, exact_dense n ld (gauss (O:=OQ) isz)) /\
  (forall pv, dropping_off MQ ex_shrink ex_times Qcdiv ceilQ (ex_opts_p pv (qz 0) (qz 0) (qz 100)) 4) /\
  valid ex_crs /\ tight ex_crs /\ injective_on (O:=OQ) 4 (matof true ex_crs).
Proof.
  assert (Z : forall x : Qc, isz x = true <-> x = qz 0).
  { intros x. unfold isz, qz. change (inject_Z 0) with 0%Q. split.
    - intros H. apply andb_prop in H. destruct H as (H1 & H2). unfold qle in *. apply Qle_bool_iff in H1, H2. apply Qc_is_canon. apply Qle_antisym; auto.
    - intros ->. reflexivity. }
  assert (CE : forall a k, 1 <= a -> 1 <= k -> a <= ceilQ (qz (Z.of_nat a)) k).
  { intros a k Ha Hk. unfold ceilQ, qz. rewrite (Qceiling_comp _ (inject_Z (Z.of_nat a * Z.of_nat k))).
    - rewrite Qceiling_Z. nia.
    - rewrite inject_Z_mult. cbn [this Q2Qc]. rewrite Qred_correct. reflexivity. }
  assert (GE : forall a, 8 <= a -> generous MQ ceilQ 4 (qz (Z.of_nat a))).
  { intros a Ha. split; [|intros k Hk; specialize (CE a k ltac:(lia) Hk); lia].
    cbn [mlt m0 MQ]. unfold qlt, qz. apply negb_true_iff. destruct (Qle_bool _ _) eqn:E; auto. exfalso. apply Qle_bool_iff in E.
    cbn [this Q2Qc] in E. rewrite !Qred_correct in E. change 0%Q with (inject_Z 0) in E. rewrite <- Zle_Qle in E. lia. }
  assert (TI : forall a k, ex_times (qz (Z.of_nat a)) k = qz (Z.of_nat (a * k))).
  { intros a k. unfold ex_times, qz. apply Qc_is_canon. cbn [this Q2Qc Qcmult]. rewrite !Qred_correct, <- inject_Z_mult. rewrite Nat2Z.inj_mul. reflexivity. }
  split; [apply OQ_field|]. split; [apply MQ_laws|]. split; [apply sort_select_ok, MQ_laws|]. split; [intros vals l; apply Permutation.Permutation_refl|]. split; [reflexivity|].
  split; [apply no_pre_ok, OQ_field|]. split; [apply (gauss_ok OQ isz OQ_field Z)|].
  split; [|split; [|split]].
  - intros pv. split; cbn [h_tau_L h_tau_U h_alpha_L h_alpha_U ex_opts_p].
    + intros x. replace (Qcdiv (m0 MQ) x) with (Q2Qc 0); [reflexivity|]. cbn [m0 MQ]. symmetry. apply Qcmult_0_l.
    + intros lvl. unfold ex_shrink. cbn [m0 MQ]. apply Qcmult_0_l.
    + reflexivity.
    + reflexivity.
    + change (qz 100) with (qz (Z.of_nat 100)). unfold multiples. rewrite !TI. repeat (constructor; [apply GE; lia|]). constructor.
    + change (qz 100) with (qz (Z.of_nat 100)). unfold multiples. rewrite !TI. repeat (constructor; [apply GE; lia|]). constructor.
  - split; [apply wfb_wf; reflexivity|apply sortedb_sorted; reflexivity].
  - apply tightb_tight. reflexivity.
  - apply (left_inv_inj OQ OQ_ring 4 (fun i j => gsolve OQ isz 4 (fun a b => crs_mat ex_crs b a) (fun k => if k =? i then qz 1 else qz 0) j)).
    intros i j Hi Hj. lt_cases; apply Qc_is_canon; vm_compute; reflexivity.
Qed.
Example C39_run :
  let r go := ex_factorize go (ex_opts (qz 0) (qz 0) (qz 100)) true ex_crs in
  match r (fun _ _ _ => false) with Ok l => map (fun P => (pm P, pn P, pp P)) l | _ => [] end = [(3, 4, [0; 2; 3; 1]); (1, 1, [0])] /\
  ex_mul ex_crs (ex_solve (r (fun _ _ _ => false)) ex_b) = map this ex_b /\
  ex_mul ex_crs (ex_solve (r (fun _ _ _ => true)) ex_b) = map this ex_b.
Proof. vm_compute. auto. Qed.
(** With pivoting nothing is deferred; automatic pivoting on a matrix with a zero
    diagonal gives up the plain elimination and starts over. *)
Definition ex_zero : CS OQ := @mkCS OQ 3 3 [0;2;4;5] [1;2;0;2;0] (map qz [2;1;3;1;4]%Z).
Example C39_run_pivoting :
  let r pv A := ex_factorize (fun _ _ _ => true) (ex_opts_p pv (qz 0) (qz 0) (qz 100)) true A in
  let shape r := match r with Ok l => map (fun P => (pm P, pn P, pp P)) l | _ => [] end in
  let mul3 x := map (fun i => this (mvec (O:=OQ) 3 (crs_mat ex_zero) (v_ (O:=OQ) (map Q2Qc x)) i)) (seq 0 3) in
  map (fun pv => shape (r pv ex_crs)) [PivOff; PivOn; PivAuto] = [[(3, 4, [0; 2; 3; 1])]; [(4, 4, [1; 2; 3; 0])]; [(3, 4, [0; 2; 3; 1])]] /\
  map (fun pv => ex_mul ex_crs (ex_solve (r pv ex_crs) ex_b)) [PivOff; PivOn; PivAuto] = [map this ex_b; map this ex_b; map this ex_b] /\
  map (fun pv => shape (r pv ex_zero)) [PivOff; PivOn; PivAuto] = [[(0, 3, [0; 1; 2])]; [(3, 3, [1; 0; 2])]; [(3, 3, [1; 0; 2])]] /\
  map (fun pv => mul3 (ex_solve (r pv ex_zero) (firstn 3 ex_b))) [PivOff; PivOn; PivAuto] = repeat (map this (firstn 3 ex_b)) 3.
Proof. vm_compute. repeat split. Qed.
Example C49_hyps : pre_safe (O:=OQ) (fun _ => no_pre 7) /\ total_dense (gauss (O:=OQ) isz) /\ nnz_of ex_crs = 10 /\
  (forall a k, mlt MQ (m0 MQ) a = true -> 1 <= k -> 1 <= ceilQ a k).
Proof.
  split; [apply no_pre_ok, OQ_field|]. split.
  { intros k D ld tr y _ _ Ly. unfold gauss. cbn [ds_solve ds_mul]. split; eexists; (split; [reflexivity|now rewrite map_length, seq_length]). }
  split; [reflexivity|]. intros a k Ha Hk. cbn [mlt m0 MQ] in Ha. unfold qlt in Ha. apply negb_true_iff in Ha. unfold ceilQ.
  assert (X : Qlt 0 (Qmult a (inject_Z (Z.of_nat k)))).
  { replace 0%Q with (Qmult 0 (inject_Z (Z.of_nat k))) by reflexivity. apply Qmult_lt_compat_r.
    - change 0%Q with (inject_Z 0). rewrite <- Zlt_Qlt. lia.
    - apply Qnot_le_lt. intros H. apply Qle_bool_iff in H. cbn [this Q2Qc] in Ha. change (Qred 0) with 0%Q in Ha. congruence. }
  pose proof (Qle_ceiling (Qmult a (inject_Z (Z.of_nat k)))) as Y.
  assert (Z0 : Qlt (inject_Z 0) (inject_Z (Qceiling (Qmult a (inject_Z (Z.of_nat k)))))) by (eapply Qlt_le_trans; eauto).
  rewrite <- Zlt_Qlt in Z0. lia.
Qed.

(** [alpha_L = alpha_U = 0], with zero drop tolerances, is not a way to disable
    dropping: the elimination then keeps everything, but both offset blocks are
    emptied before the Schur complement is formed, and [solve] is not exact. *)
Theorem C39_zero_alpha_refuted :
  let r := ex_factorize (fun _ _ _ => true) (ex_opts (qz 0) (qz 0) (qz 0)) true ex_crs in
  (exists P, r = Ok P /\ length P = 1) /\ ex_mul ex_crs (ex_solve r ex_b) <> map this ex_b.
Proof. split; [vm_compute; eauto|]. vm_compute. discriminate. Qed.
Print Assumptions C39_zero_alpha_refuted.

(** ** C32, observed on a complete run: raising [tau_L] alone leaves L untouched and
    empties U; raising [tau_U] alone empties L. *)
Definition ex_sizes (tau_L tau_U : Z) : list (nat * nat) :=
  match ex_factorize (fun _ _ _ => true) (ex_opts (qz tau_L) (qz tau_U) (qz 100)) true ex_crs with
  | Ok l => map (fun P => (length (vals (pL P)), length (vals (pU P)))) l
  | _ => []
  end.
Theorem C32_run_refuted :
  ex_sizes 0 0 = [(1, 1)] /\ ex_sizes 5000 0 = [(1, 0)] /\ ex_sizes 0 5000 = [(0, 1)].
Proof. vm_compute. auto. Qed.
Print Assumptions C32_run_refuted.
