(** * Property C54, second part: the whole symmetric factorization. *)
From Coq Require Import List Arith Lia Bool ZArith QArith Qcanon Qround.
From Verif Require Import Base Scalar Spec CSModel CSSpec CSProofs ConvModel ConvSpec ConvProofs Mag VecModel VecSpec PruneModel MrhsProofs
  CroutModel PivotModel PivotSpec PropCS SchurModel PrecModel PrecSpec LevelMath LinAlg PrecProofs StaleProofs FactorModel FactorSpec PropConv PropVec PropCrout PropSchur
  FactorProofs1 FactorProofs2 FactorProofs3 FactorProofs4 FactorProofs5 PropFactor SymmModel SymmSpec SymmProofs3 SymmProofs4 SymmProofs5 PropSymm.
Import ListNotations.
Close Scope Q_scope. Close Scope Qc_scope. Open Scope nat_scope.

(** Symmetric mode, real scalars ([conj x = x]), dropping disabled, a nonsingular
    symmetric matrix in either storage, any preprocessing that treats rows and columns
    alike, any thresholds (any deferrals), any rule for closing the hierarchy, any
    contents of the buffers: the factorization succeeds; the matrix [D] given to the
    last solver is nonsingular and symmetric; and if that solver is exact on it,
    [solve] solves [A x = b], [multiply] multiplies by [A], and the transposed
    operations belong to the adjoint. *)
Theorem C54_without_dropping_partial : forall O (G : Mag O) root shrink times bad big mdiv ceil_mul nth_el (opts : HOpts G)
    pre low go_dense mk_symm junkT junkN ji jv (rm : bool) (A : CS O) n,
  FieldLaws O -> (forall x, tconj O x = x) -> MagLaws G -> nth_element_ok (mle G) nth_el ->
  (forall k j, 1 <= k -> 1 <= low k j) -> (forall kappa_d, bad kappa_d (t0 O) = true) ->
  symm_pre_total pre -> dropping_off G shrink times mdiv ceil_mul opts n ->
  valid A -> tight A -> psize A = n -> ssize A = n -> 1 <= n ->
  meq n n (matof rm A) (fun i j => matof rm A j i) -> injective_on n (matof rm A) ->
  exists precs k D,
    symm_factorize G root shrink times bad big mdiv ceil_mul nth_el opts pre low go_dense mk_symm junkT junkN ji jv rm A = Ok precs /\
    k <= n /\
    (1 <= k -> length D = k * k /\ injective_on k (col_mat k D) /\ meq k k (col_mat k D) (fun i j => col_mat k D j i) /\
       exists l P, precs = l ++ [P] /\ psymm P = Some (mk_symm k D)) /\
    forall ld, (1 <= k -> symm_exact_at ld k (col_mat k D) (mk_symm k D)) ->
    forall b y w, length b = n -> length y = n -> compute_prec_work_space O precs <= length w ->
      (exists x w', prec_solve O precs b ld y w = Ok (x, w') /\ length x = n /\ veq n (mvec n (matof rm A) (v_ x)) (v_ b)) /\
      (exists x w', prec_solve_tran O precs b ld y w = Ok (x, w') /\ length x = n /\ veq n (mvec n (madj (matof rm A)) (v_ x)) (v_ b)) /\
      (exists x w', prec_prod O precs b ld y w = Ok (x, w') /\ length x = n /\ veq n (v_ x) (mvec n (matof rm A) (v_ b))) /\
      (exists x w', prec_prod_tran O precs b ld y w = Ok (x, w') /\ length x = n /\ veq n (v_ x) (mvec n (madj (matof rm A)) (v_ b))).
Proof.
  intros O G root shrink times bad big mdiv ceil_mul nth_el opts pre low go_dense mk_symm junkT junkN ji jv rm A n
    FL CJ ML NE HL HB HP HO VA TA PA SA Hn HY HI. rewrite <- PA in HO, HI, Hn, HY. apply (proj2 (matof_sym O rm A)) in HY.
  destruct (symm_kernel_exact G root shrink times bad big mdiv ceil_mul nth_el opts pre low go_dense mk_symm junkT junkN ji jv ML NE FL CJ HP HL HB
    (psize A) HO (S (psize A)) 1 rm A []) as (precs & k & D & E & F & R & K1 & K2 & H12); auto; try lia.
  exists precs, k, D. split; [exact E|]. split; [lia|]. split; [exact K2|]. intros ld HD b y w Lb Ly Lw. rewrite <- fix_work in Lw. rewrite PA in H12. destruct (H12 ld HD) as (H1 & H2).
  split; [|split; [|split]].
  - destruct (wp_inv _ _ _ (prec_solve_wp O FL _ n ld _ b y w H1 H2 Lb Ly Lw)) as ([x w'] & E' & L' & _ & V). rewrite fix_solve in E' by auto. eauto.
  - destruct (wp_inv _ _ _ (prec_solve_tran_wp O FL _ n ld _ b y w H1 R H2 Lb Ly Lw)) as ([x w'] & E' & L' & _ & V). rewrite fix_solve_tran in E' by auto. eauto.
  - destruct (wp_inv _ _ _ (prec_prod_wp O FL _ n ld _ b y w H1 H2 Lb Ly Lw)) as ([x w'] & E' & L' & _ & V). rewrite fix_prod in E' by auto. eauto.
  - destruct (wp_inv _ _ _ (prec_prod_tran_wp O FL _ n ld _ b y w H1 R H2 Lb Ly Lw)) as ([x w'] & E' & L' & _ & V). rewrite fix_prod_tran in E' by auto. eauto.
Qed.
Print Assumptions C54_without_dropping_partial.

(** Whatever is dropped, whether or not the matrix is symmetric, without any law of
    arithmetic: symmetric mode on a nonempty square input either raises an error in the
    preprocessing or returns at most [n] levels on which each of the four operations
    succeeds, without out-of-range access, with a result that depends on the right-hand
    side only. *)
Theorem C54_usable_partial : forall O (G : Mag O) root shrink times bad big mdiv ceil_mul nth_el (opts : HOpts G)
    pre low go_dense mk_symm junkT junkN ji jv (rm : bool) (A : CS O) n,
  MagLaws G -> nth_element_ok (mle G) nth_el ->
  (forall k j, 1 <= k -> 1 <= low k j) -> (forall lvl, ceil_pos G ceil_mul (aL G times opts false lvl)) ->
  symm_pre_safe pre -> symm_total mk_symm ->
  valid A -> tight A -> psize A = n -> ssize A = n -> 1 <= n -> 1 <= nnz_of A ->
  let F := symm_factorize G root shrink times bad big mdiv ceil_mul nth_el opts pre low go_dense mk_symm junkT junkN ji jv rm A in
  F = Err \/
  exists precs, F = Ok precs /\ 1 <= length precs <= n /\
    forall b ld y w y' w', length b = n -> length y = n -> length y' = n ->
      compute_prec_work_space O precs <= length w -> compute_prec_work_space O precs <= length w' ->
      (exists x w1 w2, prec_solve O precs b ld y w = Ok (x, w1) /\ prec_solve O precs b ld y' w' = Ok (x, w2) /\ length x = n) /\
      (exists x w1 w2, prec_solve_tran O precs b ld y w = Ok (x, w1) /\ prec_solve_tran O precs b ld y' w' = Ok (x, w2) /\ length x = n) /\
      (exists x w1 w2, prec_prod O precs b ld y w = Ok (x, w1) /\ prec_prod O precs b ld y' w' = Ok (x, w2) /\ length x = n) /\
      (exists x w1 w2, prec_prod_tran O precs b ld y w = Ok (x, w1) /\ prec_prod_tran O precs b ld y' w' = Ok (x, w2) /\ length x = n).
Proof.
  intros O G root shrink times bad big mdiv ceil_mul nth_el opts pre low go_dense mk_symm junkT junkN ji jv rm A n
    ML NE HL CL HP HD VA TA PA SA Hn HZ F. rewrite <- PA in Hn.
  destruct (symm_kernel_safe G root shrink times bad big mdiv ceil_mul nth_el opts pre low go_dense mk_symm junkT junkN ji jv ML NE HP HD HL CL
    (S (psize A)) 1 rm A []) as [E|(precs & E & FO & LN & H1 & H2)]; auto; try lia. rewrite PA in H1, H2, LN, Hn.
  right. exists precs. split; [exact E|]. split.
  { split; auto. destruct precs; [destruct (H1 0 false)|cbn; lia]. }
  intros b ld y w y' w' Lb Ly Ly' Lw Lw'. rewrite <- fix_work in Lw, Lw'.
  split; [|split; [|split]].
  - destruct (prec_solve_stale O _ n ld b y y' w w' (H1 ld false) Lb Ly Ly' Lw Lw') as ([x w1] & [x2 w2] & E1 & E2 & R1 & R2 & _).
    rewrite fix_solve in E1, E2 by auto. cbn [fst] in *. subst x2. eauto 6.
  - destruct (prec_solve_tran_stale O _ n ld b y y' w w' (H1 ld true) Lb Ly Ly' Lw Lw') as ([x w1] & [x2 w2] & E1 & E2 & R1 & R2 & _).
    rewrite fix_solve_tran in E1, E2 by auto. cbn [fst] in *. subst x2. eauto 6.
  - destruct (prec_prod_stale O _ n ld b y y' w w' (H2 ld false) Lb Ly Ly' Lw Lw') as ([x w1] & [x2 w2] & E1 & E2 & R1 & R2 & _).
    rewrite fix_prod in E1, E2 by auto. cbn [fst] in *. subst x2. eauto 6.
  - destruct (prec_prod_tran_stale O _ n ld b y y' w w' (H2 ld true) Lb Ly Ly' Lw Lw') as ([x w1] & [x2 w2] & E1 & E2 & R1 & R2 & _).
    rewrite fix_prod_tran in E1, E2 by auto. cbn [fst] in *. subst x2. eauto 6.
Qed.
Print Assumptions C54_usable_partial.

Theorem C54_nonsquare_rejected : forall O (G : Mag O) root shrink times bad big mdiv ceil_mul nth_el (opts : HOpts G)
    pre low go_dense mk_symm junkT junkN ji jv (rm : bool) (A : CS O), psize A <> ssize A ->
  symm_factorize G root shrink times bad big mdiv ceil_mul nth_el opts pre low go_dense mk_symm junkT junkN ji jv rm A = Err.
Proof. intros. unfold symm_factorize. cbn [symm_kernel]. destruct (Nat.eqb_spec (psize A) (ssize A)); [contradiction|reflexivity]. Qed.
Print Assumptions C54_nonsquare_rejected.

(** ** The hypotheses can be met *)
Lemma no_pre_symm : forall O ji, FieldLaws O -> symm_pre_total (O:=O) (fun _ => no_pre ji) /\ symm_pre_safe (O:=O) (fun _ => no_pre ji).
Proof.
  intros O ji FL.
  assert (H : forall n (A : CS O), psize A = n ->
    exists s p q m2, no_pre ji A A = Ok (s, s, p, q, m2) /\ pre_good n s s p q m2 /\ bp q = bp p).
  { intros n A H1. unfold no_pre. rewrite H1.
    destruct (C14_make_eye n (mkBP (repeat ji n) (repeat ji n))) as (E & I); [apply repeat_length|apply repeat_length|].
    rewrite E. cbn [bind]. do 4 eexists. split; [reflexivity|]. split; [|reflexivity].
    assert (R1 : forall i, i < n -> nth i (repeat (t1 O) n) (t0 O) = t1 O) by (intros; now apply nth_repeat_any).
    split; auto; try apply repeat_length; intros i Hi; rewrite R1 by auto; try apply (fl_one O FL); apply conj_1, (fl_ring O FL). }
  split; [intros lvl n A _ P1 _ _ _ _; now apply H|intros lvl n A _ P1 _ _; right].
  destruct (H n A P1) as (s & p & q & m2 & E & PG & _). exists s, s, p, q, m2. auto.
Qed.
Lemma gauss_symm : forall O z, FieldLaws O -> (forall x, z x = true <-> x = t0 O) ->
  (forall ld k D, length D = k * k -> injective_on k (col_mat k D) -> 1 <= k -> symm_exact_at ld k (col_mat k D) (gauss (O:=O) z k D)) /\ symm_total (gauss (O:=O) z).
Proof.
  intros O z FL Z. destruct (gauss_ok O z FL Z) as (H1 & H2). split.
  - intros ld k D LD HI Hk y Ly. destruct (H1 k ld k D Hk (le_n k) LD HI y Ly) as (A1 & _ & A3 & _). split; auto.
  - intros k D ld y Hk LD Ly. apply (H2 k D ld false y Hk LD Ly).
Qed.

Definition ey_factorize (go_dense : nat -> nat -> nat -> bool) (opts : HOpts MQ) (rm : bool) (A : CS OQ) : res (list (Prec OQ)) :=
  symm_factorize (O:=OQ) MQ (fun x _ => x) ex_shrink ex_times ex_badpiv (fun _ => true) Qcdiv ceilQ (sort_select MQ) opts
    (fun _ => no_pre 7) (fun z n => Nat.max 1 (ex_low z n)) go_dense (gauss (O:=OQ) isz) (fun _ _ _ => qz 9) (fun _ _ _ => 7) 5 (qz 8) rm A.
Example C54_hyps2 : (forall x, tconj OQ x = x) /\ symm_pre_total (O:=OQ) (fun _ => no_pre 7) /\ symm_pre_safe (O:=OQ) (fun _ => no_pre 7) /\
  valid ey_A /\ tight ey_A /\ meq (O:=OQ) 4 4 (matof true ey_A) (fun i j => matof true ey_A j i) /\ injective_on (O:=OQ) 4 (matof true ey_A).
Proof.
  split; [reflexivity|]. split; [apply no_pre_symm, OQ_field|]. split; [apply no_pre_symm, OQ_field|].
  split; [split; [apply wfb_wf; reflexivity|apply sortedb_sorted; reflexivity]|]. split; [apply tightb_tight; reflexivity|]. split.
  - intros i j Hi Hj. lt_cases; apply Qc_is_canon; vm_compute; reflexivity.
  - apply (left_inv_inj OQ OQ_ring 4 (fun i j => gsolve OQ isz 4 (fun a b => crs_mat ey_A b a) (fun k => if k =? i then qz 1 else qz 0) j)).
    intros i j Hi Hj. lt_cases; apply Qc_is_canon; vm_compute; reflexivity.
Qed.
Example C54_run2 :
  let r go := ey_factorize go (ex_opts (qz 0) (qz 0) (qz 100)) true ey_A in
  match r (fun _ _ _ => false) with Ok l => map (fun P => (pm P, pn P, pp P)) l | _ => [] end = [(3, 4, [0; 2; 3; 1]); (1, 1, [0])] /\
  ex_mul ey_A (ex_solve (r (fun _ _ _ => false)) ex_b) = map this ex_b /\
  ex_mul ey_A (ex_solve (r (fun _ _ _ => true)) ex_b) = map this ex_b.
Proof. vm_compute. auto. Qed.
(** On an unsymmetric matrix nothing fails, but the answer is that of another matrix. *)
Example C54_unsymmetric :
  let r := ey_factorize (fun _ _ _ => true) (ex_opts (qz 0) (qz 0) (qz 100)) true ex_crs in
  match r with Ok _ => True | _ => False end /\ ex_mul ex_crs (ex_solve r ex_b) <> map this ex_b.
Proof. split; [vm_compute; exact I|vm_compute; discriminate]. Qed.

(** ** What symmetric mode does not do *)

(** Options.h:112 documents [is_symm] for Hermitian systems.  On the Hermitian matrix
    [[2 i][-i 3]], with no dropping and no preprocessing, the factorization succeeds
    with a single level, and [solve] returns a vector that does not solve the system;
    the same happens with the complex symmetric matrix [[2 i][i 3]]. *)
Definition gz (a b : Z) : GQ := mkG (qz a) (qz b).
Definition MG : Mag OG := @mkMag OG Qc (Q2Qc 0) (fun z => Qcplus (qabs (re z)) (qabs (im z))) qlt qle Qcmult.
Definition ex_optsG : HOpts MG := mkHOpts MG (qz 0) (qz 0) (qz 1000) (qz 1000) (qz 100) (qz 100) true true PivOff (qz 1).
Definition isgz (z : GQ) : bool := isz (re z) && isz (im z).
Definition eh_factorize (A : CS OG) : res (list (Prec OG)) :=
  symm_factorize (O:=OG) MG (fun x _ => x) ex_shrink ex_times (fun kd a => ex_badpiv kd (re a)) (fun _ => true) Qcdiv ceilQ (sort_select MG) ex_optsG
    (fun _ => no_pre 7) (fun z n => Nat.max 1 (ex_low z n)) (fun _ _ _ => true) (gauss (O:=OG) isgz) (fun _ _ _ => gz 9 0) (fun _ _ _ => 7) 5 (gz 8 0) true A.
Definition eh_plain (A : CS OG) : res (list (Prec OG)) :=
  factorize (O:=OG) MG (fun x _ => x) ex_shrink ex_times (fun kd a => isgz a) (fun _ => true) Qcdiv ceilQ (sort_select MG) (fun _ l => l) ex_optsG
    (fun _ => no_pre 7) (fun z n => Nat.max 1 (ex_low z n)) (fun _ _ _ => true) (gauss (O:=OG) isgz) (fun _ _ _ => gz 9 0) (fun _ _ _ => 7) 5 (gz 8 0) true A.
Definition eh_herm : CS OG := @mkCS OG 2 2 [0;2;4] [0;1;0;1] [gz 2 0; gz 0 1; gz 0 (-1); gz 3 0].
Definition eh_csym : CS OG := @mkCS OG 2 2 [0;2;4] [0;1;0;1] [gz 2 0; gz 0 1; gz 0 1; gz 3 0].
Definition eh_b : list GQ := [gz 1 0; gz 2 0].
Definition thisg (z : GQ) : Q * Q := (this (re z), this (im z)).
Definition eh_solve (r : res (list (Prec OG))) : list GQ :=
  match r with
  | Ok P => match prec_solve OG P eh_b 0 (repeat (gz 3 0) 2) (repeat (gz 4 0) 40) with Ok (x, _) => x | _ => [] end
  | _ => []
  end.
Definition eh_mul (A : CS OG) (x : list GQ) : list (Q * Q) := map (fun i => thisg (mvec (O:=OG) 2 (crs_mat A) (v_ (O:=OG) x) i)) (seq 0 2).
Theorem C54_hermitian_refuted :
  let ok A r := length (eh_solve r) = 2 /\ eh_mul A (eh_solve r) = map thisg eh_b in
  let wrong A r := length (eh_solve r) = 2 /\ eh_mul A (eh_solve r) <> map thisg eh_b in
  meq (O:=OG) 2 2 (crs_mat eh_herm) (madj (crs_mat eh_herm)) /\ wrong eh_herm (eh_factorize eh_herm) /\ ok eh_herm (eh_plain eh_herm) /\
  meq (O:=OG) 2 2 (crs_mat eh_csym) (fun i j => crs_mat eh_csym j i) /\ wrong eh_csym (eh_factorize eh_csym) /\ ok eh_csym (eh_plain eh_csym).
Proof.
  split; [intros [|[|i]] [|[|j]] Hi Hj; try lia; vm_compute; reflexivity|].
  split; [split; [vm_compute; reflexivity|vm_compute; discriminate]|].
  split; [split; vm_compute; reflexivity|].
  split; [intros [|[|i]] [|[|j]] Hi Hj; try lia; vm_compute; reflexivity|].
  split; [split; [vm_compute; reflexivity|vm_compute; discriminate]|].
  split; vm_compute; reflexivity.
Qed.
Print Assumptions C54_hermitian_refuted.

(** C32 in symmetric mode: the only factor there is, L, is thinned by [tau_U]; [tau_L]
    has no effect on it. *)
Definition ey_sizes (tau_L tau_U : Z) : list nat :=
  match ey_factorize (fun _ _ _ => true) (ex_opts (qz tau_L) (qz tau_U) (qz 100)) true ey_A with
  | Ok l => map (fun P => length (vals (pL P))) l
  | _ => []
  end.
Theorem C32_symm_run_refuted : ey_sizes 0 0 = [1] /\ ey_sizes 5000 0 = [1] /\ ey_sizes 0 5000 = [0].
Proof. vm_compute. auto. Qed.
Print Assumptions C32_symm_run_refuted.
