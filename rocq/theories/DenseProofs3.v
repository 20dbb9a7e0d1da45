(** * DenseProofs3: several right-hand sides; the symmetric solver. *)
From Coq Require Import List Arith Lia Bool QArith Qabs Permutation Sorted.
From Verif Require Import Base Scalar Spec VecProofs DenseModel DenseSpec DenseProofs1 DenseProofs2.
Import ListNotations.
Local Open Scope nat_scope.
Local Arguments bind {A B} !m f /.

Section Mrhs.
  Variable O : Ops.
  Notation T := (T O).

  Section Phases.
    Variables (nr nrhs : nat) (f1 f2 f3 : list T -> res (list T)).
    Hypothesis L1 : forall v z, length v = nr -> f1 v = Ok z -> length z = nr.
    Hypothesis L2 : forall v z, length v = nr -> f2 v = Ok z -> length z = nr.
    Hypothesis L3 : forall v z, length v = nr -> f3 v = Ok z -> length z = nr.
    Hypothesis E1 : forall v, f1 v <> Err. Hypothesis E2 : forall v, f2 v <> Err. Hypothesis E3 : forall v, f3 v <> Err.

    Lemma phases : forall x, length x = nr * nrhs ->
      match (x <- each_col O nr nrhs f1 x ;; x <- each_col O nr nrhs f2 x ;; each_col O nr nrhs f3 x) with
      | Ok x' => length x' = nr * nrhs /\ forall c, c < nrhs -> (v <- f1 (col nr c x) ;; v <- f2 v ;; f3 v) = Ok (col nr c x')
      | Err => False
      | UB => exists c, c < nrhs /\ (v <- f1 (col nr c x) ;; v <- f2 v ;; f3 v) = UB
      end.
    Proof.
      intros x Lx. pose proof (each_col_spec O nr nrhs f1 x L1 E1 Lx) as S1.
      destruct (each_col O nr nrhs f1 x) as [y| |]; cbn [bind]; try tauto.
      2:{ destruct S1 as (c & Hc & E). exists c. split; auto. now rewrite E. }
      destruct S1 as (Ly & S1). pose proof (each_col_spec O nr nrhs f2 y L2 E2 Ly) as S2.
      destruct (each_col O nr nrhs f2 y) as [z| |]; cbn [bind]; try tauto.
      2:{ destruct S2 as (c & Hc & E). exists c. split; auto. rewrite S1 by auto. cbn. now rewrite E. }
      destruct S2 as (Lz & S2). pose proof (each_col_spec O nr nrhs f3 z L3 E3 Lz) as S3.
      destruct (each_col O nr nrhs f3 z) as [w| |]; try tauto.
      - destruct S3 as (Lw & S3). split; auto. intros c Hc. rewrite S1 by auto. cbn. rewrite S2 by auto. cbn. auto.
      - destruct S3 as (c & Hc & E). exists c. split; auto. rewrite S1 by auto. cbn. rewrite S2 by auto. cbn. now rewrite E.
    Qed.
    Lemma phases_1 : forall x, length x = nr ->
      (x <- each_col O nr 1 f1 x ;; x <- each_col O nr 1 f2 x ;; each_col O nr 1 f3 x) = (v <- f1 x ;; v <- f2 v ;; f3 v).
    Proof.
      intros x Lx. rewrite each_col_1 by auto. destruct (f1 x) as [y| |] eqn:F1; cbn [bind]; auto. apply L1 in F1; auto.
      rewrite each_col_1 by auto. destruct (f2 y) as [z| |] eqn:F2; cbn [bind]; auto. apply L2 in F2; auto. now apply each_col_1.
    Qed.
  End Phases.

  Lemma to_cols_length : forall nrhs (x : list (list T)), length (to_cols O nrhs x) = length x * nrhs.
  Proof.
    intros. unfold to_cols. assert (G : forall k lo, length (flat_map (fun j => map (fun row => nth j row (t0 O)) x) (seq lo k)) = length x * k).
    { induction k; intros lo; cbn [seq flat_map]; [cbn; lia|]. rewrite app_length, map_length, IHk. lia. }
    apply G.
  Qed.
  Lemma to_cols_col : forall nrhs (x : list (list T)) c, c < nrhs -> col (length x) c (to_cols O nrhs x) = rhs_col (t0 O) c x.
  Proof.
    intros nrhs x. unfold to_cols, col, slice, rhs_col.
    assert (G : forall k lo c, c < k -> firstn (length x) (skipn (c * length x) (flat_map (fun j => map (fun row => nth j row (t0 O)) x) (seq lo k))) =
      map (fun row => nth (lo + c) row (t0 O)) x).
    { induction k; intros lo c Hc; [lia|]. cbn [seq flat_map]. destruct c as [|c].
      - cbn [Nat.mul skipn]. rewrite firstn_app, map_length, Nat.sub_diag, firstn_all2 by (rewrite map_length; lia).
        rewrite firstn_O, app_nil_r, Nat.add_0_r. auto.
      - rewrite skipn_app, skipn_all2 by (rewrite map_length; lia). rewrite map_length. cbn [app].
        replace (S c * length x - length x) with (c * length x) by lia. rewrite IHk by lia. now replace (S lo + c) with (lo + S c) by lia. }
    intros c Hc. now rewrite (G nrhs 0 c Hc).
  Qed.
  Lemma of_cols_length : forall nr nrhs (m : list T), length (of_cols O nr nrhs m) = nr.
  Proof. intros. unfold of_cols. now rewrite map_length, seq_length. Qed.
  Lemma of_cols_row : forall nr nrhs (m : list T) r, In r (of_cols O nr nrhs m) -> length r = nrhs.
  Proof. intros nr nrhs m r H. unfold of_cols in H. apply in_map_iff in H. destruct H as (i & <- & _). now rewrite map_length, seq_length. Qed.
  Lemma of_cols_col : forall nr nrhs (m : list T) j, length m = nr * nrhs -> j < nrhs -> rhs_col (t0 O) j (of_cols O nr nrhs m) = col nr j m.
  Proof.
    intros nr nrhs m j L Hj. unfold rhs_col, of_cols. rewrite map_map.
    apply (list_ext _ _ _ (t0 O)).
    - rewrite map_length, seq_length. symmetry. apply (col_length nr nrhs); auto.
    - rewrite map_length, seq_length. intros i Hi. rewrite nth_map_seq by auto. rewrite nth_map_seq by auto.
      unfold col. rewrite nth_slice by auto. f_equal. lia.
  Qed.

  Section QRM.
    Variable is0 : T -> bool.
    Variable ormqr : bool -> nat -> list T -> list T.
    Variables (jv : T) (s : QR O).
    Hypothesis HL : forall tr r v, length v = q_nr s -> length (ormqr tr r v) = q_nr s.
    Hypothesis HP : length (q_jpvt s) <= q_nr s.

    Lemma mrhs_gen : forall (multi : nat -> list T -> res (list T)) single nrhs (x : list (list T)),
      length x = q_nr s ->
      (forall v, length v = q_nr s -> single v = multi 1 v) ->
      (forall y, length y = q_nr s * nrhs ->
        match multi nrhs y with
        | Ok y' => length y' = q_nr s * nrhs /\ forall c, c < nrhs -> multi 1 (col (q_nr s) c y) = Ok (col (q_nr s) c y')
        | Err => forall v, length v = q_nr s -> multi 1 v = Err
        | UB => exists c, c < nrhs /\ multi 1 (col (q_nr s) c y) = UB
        end) ->
      match (m <- multi nrhs (to_cols O nrhs x) ;; Ok (of_cols O (length x) nrhs m)) with
      | Ok y => length y = length x /\ (forall r, In r y -> length r = nrhs) /\
                forall j, j < nrhs -> single (rhs_col (t0 O) j x) = Ok (rhs_col (t0 O) j y)
      | Err => forall j, single (rhs_col (t0 O) j x) = Err
      | UB => exists j, j < nrhs /\ single (rhs_col (t0 O) j x) = UB
      end.
    Proof.
      intros multi single nrhs x Lx HS HM.
      assert (LR : forall j, length (rhs_col (t0 O) j x) = q_nr s) by (intros j; unfold rhs_col; rewrite map_length; auto).
      specialize (HM (to_cols O nrhs x) ltac:(rewrite to_cols_length, Lx; auto)).
      assert (C : forall c, c < nrhs -> col (q_nr s) c (to_cols O nrhs x) = rhs_col (t0 O) c x) by (intros; rewrite <- Lx; now apply to_cols_col).
      destruct (multi nrhs (to_cols O nrhs x)) as [m| |]; cbn [bind].
      - destruct HM as (Lm & HM). split; [apply of_cols_length|]. split; [apply of_cols_row|]. intros j Hj. rewrite HS by auto. rewrite <- C, HM by auto.
        f_equal. symmetry. rewrite Lx. now apply of_cols_col.
      - intros j. rewrite HS by auto. auto.
      - destruct HM as (c & Hc & E). exists c. split; auto. rewrite HS by auto. rewrite <- C; auto.
    Qed.

    Local Lemma lo : forall tr r v z, length v = q_nr s -> Ok (ormqr tr r v) = Ok z -> length z = q_nr s.
    Proof. intros tr r v z L E. injection E as <-. auto. Qed.
    Local Lemma ls : forall rk v z, length v = q_nr s -> scatter_p O jv s rk v = Ok z -> length z = q_nr s.
    Proof. intros rk v z L E. apply scatter_len in E; lia. Qed.
    Local Lemma lg : forall rk v z, length v = q_nr s -> gather_p O jv s rk v = Ok z -> length z = q_nr s.
    Proof. intros rk v z L E. apply gather_len in E; lia. Qed.
    Local Lemma okne : forall (v : list T), Ok v <> Err. Proof. discriminate. Qed.

    Lemma multi_phases : forall (f1 f2 f3 : list T -> res (list T)),
      (forall v z, length v = q_nr s -> f1 v = Ok z -> length z = q_nr s) ->
      (forall v z, length v = q_nr s -> f2 v = Ok z -> length z = q_nr s) ->
      (forall v z, length v = q_nr s -> f3 v = Ok z -> length z = q_nr s) ->
      (forall v, f1 v <> Err) -> (forall v, f2 v <> Err) -> (forall v, f3 v <> Err) ->
      forall (ready : bool) nrhs y, length y = q_nr s * nrhs ->
      let multi k y := if negb ready then Err else x <- each_col O (q_nr s) k f1 y ;; x <- each_col O (q_nr s) k f2 x ;; each_col O (q_nr s) k f3 x in
        match multi nrhs y with
        | Ok y' => length y' = q_nr s * nrhs /\ forall c, c < nrhs -> multi 1 (col (q_nr s) c y) = Ok (col (q_nr s) c y')
        | Err => forall v, length v = q_nr s -> multi 1 v = Err
        | UB => exists c, c < nrhs /\ multi 1 (col (q_nr s) c y) = UB
        end.
    Proof.
      intros f1 f2 f3 L1 L2 L3 E1 E2 E3 rd nrhs y Ly multi. unfold multi. destruct rd; cbn [negb]; [|auto].
      assert (P1 : forall v, length v = q_nr s -> _) by exact (phases_1 (q_nr s) f1 f2 f3 L1 L2 L3).
      pose proof (phases (q_nr s) nrhs f1 f2 f3 L1 L2 L3 E1 E2 E3 y Ly) as P.
      destruct (x <- each_col O (q_nr s) nrhs f1 y ;; x <- each_col O (q_nr s) nrhs f2 x ;; each_col O (q_nr s) nrhs f3 x) as [y'| |].
      - destruct P as (P & Q). split; auto. intros c Hc. rewrite P1 by (apply (col_length _ nrhs); auto). auto.
      - tauto.
      - destruct P as (c & Hc & Q). exists c. split; auto. rewrite P1 by (apply (col_length _ nrhs); auto). auto.
    Qed.

    Lemma solve_mrhs_l : forall nrhs x rank tran, length x = q_nr s ->
      match qr_solve_mrhs O is0 ormqr jv s nrhs x rank tran with
      | Ok y => length y = length x /\ (forall r, In r y -> length r = nrhs) /\
                forall j, j < nrhs -> qr_solve O is0 ormqr jv s (rhs_col (t0 O) j x) rank tran = Ok (rhs_col (t0 O) j y)
      | Err => forall j, qr_solve O is0 ormqr jv s (rhs_col (t0 O) j x) rank tran = Err
      | UB => exists j, j < nrhs /\ qr_solve O is0 ormqr jv s (rhs_col (t0 O) j x) rank tran = UB
      end.
    Proof.
      intros nrhs x rank tran Lx. unfold qr_solve_mrhs. rewrite (proj2 (Nat.eqb_eq _ _) Lx). cbn [negb]. destruct tran.
      - apply (mrhs_gen (fun k y => solve_t O is0 ormqr jv s k rank y) (fun v => qr_solve O is0 ormqr jv s v rank true)); auto.
        + intros v Lv. unfold qr_solve. now rewrite (proj2 (Nat.eqb_eq _ _) Lv).
        + intros y Ly. unfold solve_t. set (rk := use_rank _ _ _).
          apply (multi_phases (gather_p O jv s rk) (trsv_c O is0 (q_nr s) (q_mat s) rk) (fun v => Ok (ormqr false rk v))); auto using gather_not_err, trsv_c_not_err, okne.
          * apply lg. * intros v z L E. apply trsv_c_len in E. lia. * apply lo.
      - apply (mrhs_gen (fun k y => solve_nt O is0 ormqr jv s k rank y) (fun v => qr_solve O is0 ormqr jv s v rank false)); auto.
        + intros v Lv. unfold qr_solve. now rewrite (proj2 (Nat.eqb_eq _ _) Lv).
        + intros y Ly. unfold solve_nt. set (rk := use_rank _ _ _).
          apply (multi_phases (fun v => Ok (ormqr true rk v)) (trsv_n O is0 (q_nr s) (q_mat s) rk) (scatter_p O jv s rk)); auto using scatter_not_err, trsv_n_not_err, okne.
          * apply lo. * intros v z L E. apply trsv_n_len in E. lia. * apply ls.
    Qed.
    Lemma multiply_mrhs_l : forall nrhs x rank tran, length x = q_nr s ->
      match qr_multiply_mrhs O ormqr jv s nrhs x rank tran with
      | Ok y => length y = length x /\ (forall r, In r y -> length r = nrhs) /\
                forall j, j < nrhs -> qr_multiply O ormqr jv s (rhs_col (t0 O) j x) rank tran = Ok (rhs_col (t0 O) j y)
      | Err => forall j, qr_multiply O ormqr jv s (rhs_col (t0 O) j x) rank tran = Err
      | UB => exists j, j < nrhs /\ qr_multiply O ormqr jv s (rhs_col (t0 O) j x) rank tran = UB
      end.
    Proof.
      intros nrhs x rank tran Lx. unfold qr_multiply_mrhs. rewrite (proj2 (Nat.eqb_eq _ _) Lx). cbn [negb]. destruct tran.
      - apply (mrhs_gen (fun k y => multiply_t O ormqr jv s k rank y) (fun v => qr_multiply O ormqr jv s v rank true)); auto.
        + intros v Lv. unfold qr_multiply. now rewrite (proj2 (Nat.eqb_eq _ _) Lv).
        + intros y Ly. unfold multiply_t. set (rk := use_rank _ _ _).
          apply (multi_phases (fun v => Ok (ormqr true rk v)) (trmv_c O (q_nr s) (q_mat s) rk) (scatter_p O jv s rk)); auto using scatter_not_err, trmv_c_not_err, okne.
          * apply lo. * intros v z L E. apply trmv_c_len in E. lia. * apply ls.
      - apply (mrhs_gen (fun k y => multiply_nt O ormqr jv s k rank y) (fun v => qr_multiply O ormqr jv s v rank false)); auto.
        + intros v Lv. unfold qr_multiply. now rewrite (proj2 (Nat.eqb_eq _ _) Lv).
        + intros y Ly. unfold multiply_nt. set (rk := use_rank _ _ _).
          apply (multi_phases (gather_p O jv s rk) (trmv_n O (q_nr s) (q_mat s) rk) (fun v => Ok (ormqr false rk v))); auto using gather_not_err, trmv_n_not_err, okne.
          * apply lg. * intros v z L E. apply trmv_n_len in E. lia. * apply lo.
    Qed.
  End QRM.
End Mrhs.
