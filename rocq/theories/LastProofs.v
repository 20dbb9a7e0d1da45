(** * LastProofs: QRCP meets the conditions the factorization theorems put on the last solver. *)
From Coq Require Import List Arith Lia Bool QArith.
From Verif Require Import Base Scalar Spec LinAlg LevelMath PrecModel DenseModel DenseSpec DenseProofs1 DenseProofs2 DenseProofs4 FactorSpec FactorProofs5 LastModel.
Import ListNotations.
Local Open Scope nat_scope.

(** The rank is never larger than the matrix. *)
Lemma est_loop_le : forall O fmul laic1 nr nc (m : list (T O)), nc <= nr -> 1 <= nc -> length m = nr * nc ->
  forall fuel tol r x y smin smax, r + fuel = nc -> length x = nc -> length y = nc ->
  wp (est_loop O fmul laic1 fuel nr m tol r x y smin smax) (fun k => k <= nc).
Proof.
  intros O fmul laic1 nr nc m H2 H1 LM. induction fuel as [|fuel IH]; intros tol r x y smin smax Hr Lx Ly; [cbn; lia|].
  rewrite (est_step O fmul laic1 nr nc m H2 H1 LM) by (auto; lia). cbv zeta.
  destruct (laic1 false r x smin _ _) as ((a & b) & c). destruct (laic1 true r y smax _ _) as ((a' & b') & c').
  destruct (Qle_bool _ _); [|cbn; lia]. apply IH; [lia| |]; apply ext_len.
Qed.
Lemma rank_le : forall O mag fmul laic1 jv dt cd co k (m : list (T O)), 1 <= k -> length m = k * k ->
  exists r, qrcp_rank O mag fmul laic1 jv dt cd co k k m = Ok r /\ r <= k.
Proof.
  intros O mag fmul laic1 jv dt cd co k m H1 LM.
  destruct (qrcp_rank_cases O mag fmul laic1 jv k k m (le_n _) H1 LM dt cd co) as (t & E & _). rewrite E. destruct t; [|eauto].
  unfold est_rank_2norm. rewrite (dg O k k m (le_n _) H1 LM) by lia. cbn [bind]. rewrite set_ok by (rewrite repeat_length; lia). cbn [bind].
  match goal with |- exists r, ?e = Ok r /\ _ => assert (W : wp e (fun r => r <= k)) end.
  { apply (est_loop_le O fmul laic1 k k m (le_n _) H1 LM); rewrite ?upd_length, ?repeat_length; auto. }
  apply wp_inv in W. destruct W as (r & -> & Hr). eauto.
Qed.

(** An injective triangular matrix has a nonzero diagonal. *)
Lemma upper_diag : forall O (z : T O -> bool), FieldLaws O -> (forall x, z x = true <-> x = t0 O) ->
  forall n (R : nat -> nat -> T O), (forall i j, j < i -> R i j = t0 O) -> injective_on n R -> forall i, i < n -> R i i <> t0 O.
Proof.
  intros O z FL Z n R U I. pose proof (fl_ring O FL) as RL.
  assert (IN : forall a b : T O, tmul O a b = t0 O -> a <> t0 O -> b = t0 O).
  { intros a b E Na. destruct (z b) eqn:Zb; [now apply Z|]. exfalso. apply (mul_nz O FL a b); auto. intros ->. rewrite (proj2 (Z _) eq_refl) in Zb. discriminate. }
  assert (D : forall k i, n - i <= k -> i < n -> R i i <> t0 O); [|intros i Hi; apply (D n); lia].
  induction k as [|k IH]; intros i Hk Hi; [lia|].
  pose proof (gsolve_l O z FL Z n R (fun j => if j =? i then t1 O else t0 O) I) as G. set (x := gsolve O z n R _) in G.
  assert (X : forall l c, n - c <= l -> i < c -> c < n -> x c = t0 O).
  { induction l as [|l IHl]; intros c Hc Hic Hcn; [lia|]. apply (IN (R c c)); [|apply IH; lia].
    specialize (G c Hcn). cbv beta in G. destruct (Nat.eqb_spec c i); [lia|]. unfold mvec in G.
    rewrite (Spec.sum_one_nz O RL n c) in G; auto. intros j Hj Njc. destruct (Nat.lt_ge_cases j c); [rewrite U by auto; apply (mul0l O RL)|].
    rewrite (IHl j) by lia. apply (mul0r O RL). }
  intros E0. specialize (G i Hi). cbv beta in G. rewrite Nat.eqb_refl in G. unfold mvec in G.
  rewrite (Spec.sum_zero O RL) in G; [symmetry in G; now apply (fl_one O FL)|].
  intros j Hj. destruct (Nat.lt_trichotomy j i) as [L|[->|L]].
  - rewrite U by auto. apply (mul0l O RL).
  - rewrite E0. apply (mul0l O RL).
  - rewrite (X n j) by lia. apply (mul0r O RL).
Qed.

Section L.
  Variable O : Ops.
  Notation T := (T O).
  Variable is0 : T -> bool.
  Variable mag : T -> Q.
  Variable fmul : Q -> Q -> Q.
  Variable laic1 : bool -> nat -> list T -> Q -> list T -> T -> Q * T * T.
  Variable jv : T.
  Variables diag_tol cond_def cond_opt : Q.
  Variable geqp3 : nat -> list T -> list T * list nat.
  Variable ormqr : nat -> list T -> bool -> nat -> list T -> list T.
  Notation mk := (mk_qrcp O is0 mag fmul laic1 jv diag_tol cond_def cond_opt geqp3 ormqr).
  Notation qo := (qr_of O mag fmul laic1 jv diag_tol cond_def cond_opt geqp3).

  (** The triangle of an injective matrix has no zero on its diagonal. *)
  Lemma qr_diag : FieldLaws O -> (forall x, is0 x = true <-> x = t0 O) -> forall n A m jpvt Q, geqp3_ok n A m jpvt Q -> injective_on n A ->
    forall i, i < n -> is0 (cm n m i i) = false /\ is0 (tconj O (cm n m i i)) = false.
  Proof.
    intros FL Z n A m jpvt Q GQ I. pose proof (fl_ring O FL) as RL.
    assert (IR : injective_on n (upper n m)).
    { apply (inj_ker O FL). intros y Hy k Hk. destruct (gq_piv _ _ _ _ _ GQ) as (LP & HPv & IP).
      set (zz := fun j => sum n (fun l => if Nat.eqb (piv jpvt l) j then y l else t0 O)).
      assert (ZK : forall l, l < n -> zz (piv jpvt l) = y l).
      { intros l Hl. unfold zz. rewrite (Spec.sum_one_nz O RL n l); auto; [now rewrite Nat.eqb_refl|]. intros q Hq N.
        destruct (Nat.eqb_spec (piv jpvt q) (piv jpvt l)) as [E|]; auto. apply (piv_inj n) in E; auto; [lia|]. apply (gq_piv _ _ _ _ _ GQ). }
      rewrite <- (ZK k Hk). apply (I zz (fun _ => t0 O)); [|apply (piv_lt n jpvt k); [apply (gq_piv _ _ _ _ _ GQ)|exact Hk]].
      intros i Hi. unfold mvec at 2. rewrite (Spec.sum_zero O RL n (fun j => tmul O (A i j) (t0 O))) by (intros; apply (mul0r O RL)).
      rewrite (Az O RL n A Q m jpvt GQ n (le_n _) zz y); auto.
      - apply (Spec.sum_zero O RL). intros l Hl. rewrite (Hy l Hl). apply (mul0r O RL).
      - intros l Hl. rewrite ZK by auto. destruct (Nat.ltb_spec l n); auto; lia. }
    intros i Hi.
    assert (N : cm n m i i <> t0 O).
    { rewrite <- (upper_in O n m i i) by lia. apply (upper_diag O is0 FL Z n (upper n m)); auto. intros; now apply upper_out. }
    split.
    - destruct (is0 (cm n m i i)) eqn:E; auto. apply Z in E. contradiction.
    - destruct (is0 (tconj O (cm n m i i))) eqn:E; auto. apply Z in E. exfalso. apply N.
      rewrite <- (rl_conj_inv O RL (cm n m i i)), E. apply (conj_0 O RL).
  Qed.

  Lemma qrcp_exact_l : FieldLaws O -> (forall x, is0 x = true <-> x = t0 O) -> forall k D Q, 1 <= k ->
    geqp3_ok k (col_mat k D) (fst (geqp3 k D)) (snd (geqp3 k D)) Q -> ormqr_ok k Q (ormqr k D) -> injective_on k (col_mat k D) ->
    forall ld, (k <= ld \/ ld = 0 /\ ds_rank (mk k D) = k) -> exact_at ld k (col_mat k D) (mk k D).
  Proof.
    intros FL Z k D Q Hk GQ' OQ IC ld Hld y Ly. pose proof (fl_ring O FL) as RL. set (C := col_mat k D) in *.
    pose proof (qr_diag FL Z k C _ _ Q GQ' IC) as HD.
    set (s := qo k D).
    assert (Es : s = mkQR k k (fst (geqp3 k D)) (snd (geqp3 k D)) (q_rank s)).
    { unfold s, qr_of. destruct (geqp3 k D); reflexivity. }
    assert (E1 : q_nr s = k) by (rewrite Es; reflexivity).
    assert (E2 : q_mat s = fst (geqp3 k D)) by (rewrite Es; reflexivity).
    assert (E3 : q_jpvt s = snd (geqp3 k D)) by (rewrite Es; reflexivity).
    assert (RK : use_rank k ld (q_rank s) = k).
    { unfold use_rank. cbn [mk_qrcp ds_rank] in Hld. fold s in Hld. destruct (Nat.eqb_spec ld 0); [lia|]. destruct (Nat.ltb_spec k ld); lia. }
    rewrite <- E2, <- E3 in GQ'. rewrite <- E2 in HD.
    pose proof (oq_len _ _ _ OQ) as HL. pose proof (gq_len _ _ _ _ _ GQ') as HM. pose proof (gq_piv _ _ _ _ _ GQ') as HP.
    assert (ZN : forall a, is0 a = false -> a <> t0 O) by (intros a Ha ->; rewrite (proj2 (Z _) eq_refl) in Ha; discriminate).
    assert (RL' : use_rank k ld (q_rank s) <= k) by lia.
    cbn [mk_qrcp ds_solve ds_mul]. fold s. repeat split.
    - destruct (solve_nt_exact O is0 (ormqr k D) jv s k Hk E1 HL HM HP C Q GQ' OQ ld RL' FL ZN y Ly) as (z & E & (Lz & _) & X).
      { intros i Hi. apply HD. lia. } exists z. auto.
    - destruct (solve_t_exact O is0 (ormqr k D) jv s k Hk E1 HL HM HP C Q GQ' OQ ld RL' FL ZN y Ly) as (z & E & (Lz & _) & X).
      { intros i Hi. apply HD. lia. } exists z. auto.
    - destruct (multiply_nt_exact O (ormqr k D) jv s k Hk E1 HL HM HP C Q GQ' OQ ld RL' RL y Ly) as (z & E & Lz & _ & X). exists z. auto.
    - destruct (multiply_t_exact O (ormqr k D) jv s k Hk E1 HL HM HP C Q GQ' OQ ld RL' RL y Ly) as (z & E & Lz & _ & _ & X). exists z. auto.
  Qed.

  (** With a division that does not trap, the solver returns an array of the right size whatever
      the arithmetic. *)
  Lemma qrcp_total_l : (forall x, is0 x = false) ->
    (forall k D, 1 <= k -> length D = k * k -> length (fst (geqp3 k D)) = k * k /\ good_pivots k (snd (geqp3 k D)) /\
       forall tr r v, r <= k -> length v = k -> length (ormqr k D tr r v) = k) ->
    total_dense mk.
  Proof.
    intros Z G k D ld tr y Hk LD Ly. destruct (G k D Hk LD) as (HM & HP & HL).
    set (s := qo k D).
    assert (Es : s = mkQR k k (fst (geqp3 k D)) (snd (geqp3 k D)) (q_rank s)).
    { unfold s, qr_of. destruct (geqp3 k D); reflexivity. }
    assert (E1 : q_nr s = k) by (rewrite Es; reflexivity).
    assert (E2 : q_mat s = fst (geqp3 k D)) by (rewrite Es; reflexivity).
    assert (E3 : q_jpvt s = snd (geqp3 k D)) by (rewrite Es; reflexivity).
    assert (RO : q_rank s <= k).
    { unfold s, qr_of. destruct (geqp3 k D) as (m & jp) eqn:EG. cbn [q_rank]. cbn [fst] in HM.
      destruct (rank_le O mag fmul laic1 jv diag_tol cond_def cond_opt k m Hk HM) as (r & -> & Hr). exact Hr. }
    rewrite <- E2 in HM. rewrite <- E3 in HP.
    assert (RK : use_rank k ld (q_rank s) <= k) by (unfold use_rank; destruct (Nat.eqb_spec ld 0); [auto|destruct (Nat.ltb_spec k ld); lia]).
    cbn [mk_qrcp ds_solve ds_mul]. fold s. split.
    - apply (qr_solve_ok O is0 (ormqr k D) jv s k Hk E1 HL HM HP ld RK tr y Ly). auto.
    - apply (qr_multiply_ok O (ormqr k D) jv s k Hk E1 HL HM HP ld RK tr y Ly).
  Qed.
End L.
