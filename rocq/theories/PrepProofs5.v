(** * PrepProofs5: the a priori scalings over the real numbers. *)
From Coq Require Import List Arith ZArith Lia Lra Bool Permutation Reals.
From Verif Require Import Base Scalar Spec VecProofs CSModel CSSpec CSProofs ConvModel ConvSpec ConvProofs ConvProofs3 Mag VecModel VecProofs PruneModel PreModel
  EqModel EqSpec DualSpec PrepModel PrepSpec PrepProofs1 PrepProofs2 PrepProofs4.
Import ListNotations.
Close Scope R_scope. Open Scope nat_scope.
Notation nthr i l := (nth i l 0%R).

Lemma mmax_re : forall a b : R, mmax MRe a b = Rmax a b.
Proof. intros. unfold mmax. cbn. unfold Rmax. destruct (Rlt_dec a b), (Rle_dec a b); lra. Qed.
Lemma mis0_re : forall a : R, (0 <= a)%R -> (0 < (if mis0 MRe a then 1 else a))%R.
Proof. intros a H. unfold mis0. cbn. destruct (Rle_dec a 0), (Rle_dec 0 a); cbn; lra. Qed.

Section B.
  Variable B : CS ORe.
  Hypothesis W : wf B.
  Hypothesis TT : tight B.
  Hypothesis SQ : ssize B = psize B.
  Hypothesis NZ : forall i j v, i < psize B -> stored B i j v -> v <> 0%R.
  Notation n := (psize B).
  Notation VL k := (nth k (vals B) 0%R).

  Lemma vl_nz : forall i k, i < n -> st B i <= k < st B (S i) -> VL k <> 0%R.
  Proof. intros i k Hi Hk. apply (NZ i (ix B k)); auto. apply stored_at. exists k. auto. Qed.

  Lemma over_row_k : forall S (I : nat -> S -> Prop) row f s, row < n -> I (st B row) s ->
    (forall k s, st B row <= k < st B (Datatypes.S row) -> I k s -> wp (f k (ix B k) s) (I (Datatypes.S k))) -> wp (over_row B row f s) (I (st B (Datatypes.S row))).
  Proof.
    intros S I row f s Hr Hs Hf. unfold over_row. pose proof (wf_len ORe B W). pose proof (st_le B W TT SQ row Hr) as (S1 & S2 & S3).
    wpb. apply wp_get with (d := 0); [lia|]. wpb. apply wp_get with (d := 0); [lia|]. fold (st B row). fold (st B (Datatypes.S row)).
    destruct (Nat.ltb_spec (st B (Datatypes.S row)) (st B row)); [lia|].
    apply for_range_inv with (I := I); auto. intros k s' Hk Hs'. wpb. apply wp_get with (d := 0); [lia|]. apply Hf; auto.
  Qed.

  Lemma st_le2 : forall a b, a <= b -> b <= n -> st B a <= st B b.
  Proof. intros. apply (st_mono ORe B W); auto. Qed.

  (** Values scaled row by row. *)
  Definition vscaled (val : list R) (f : nat -> nat -> R) : Prop := forall i k, i < n -> st B i <= k < st B (S i) -> nthr k val = (VL k * f i (ix B k))%R.

  (** The largest magnitude of a row is not negative. *)
  Lemma rmax_nonneg : forall val b e, b < e -> e <= length val -> wp (row_max MRe val b e) (fun r => (0 <= r)%R).
  Proof.
    intros val b e H1 H2. unfold row_max. wpb. apply wp_get with (d := 0%R); [exact (Nat.lt_le_trans _ _ _ H1 H2)|]. wpb.
    eapply wp_conseq; [apply for_range_inv with (I := fun _ _ => True); [lia|auto|]|intros; apply wp_ok; cbn; apply Rabs_pos].
    intros i s Hi _. wpb. apply wp_get with (d := 0%R); [exact (Nat.lt_le_trans _ _ _ (proj2 Hi) H2)|]. apply wp_ok. auto.
  Qed.

  Ltac nl := cbn [M MRe T ORe] in *; lia.

  Lemma extreme_rel : forall symm (rs cs : list R), n <= length rs -> n <= length cs ->
    wp (scale_extreme_values MRe 1%R Rinv Rmult symm B rs cs) (fun '(B', rs', cs') => scaled_by B B' rs' cs').
  Proof.
    intros symm rs cs L1 L2. unfold scale_extreme_values. cbv zeta. wpb.
    pose proof (wf_len ORe B W) as WL. pose proof TT as (T1 & T2 & T3).
    eapply wp_conseq; [apply for_range_inv with (I := fun row '(val, rs') => length val = length (vals B) /\ length rs' = length rs /\
      (forall i, i < row -> (0 < nthr i rs')%R) /\
      (forall i k, i < row -> st B i <= k < st B (S i) -> nthr k val = (VL k * nthr i rs')%R) /\
      (forall k, st B row <= k -> nthr k val = VL k)); [lia| |]|].
    { split; [auto|]. split; [auto|]. split; [intros; lia|]. split; [intros; lia|auto]. }
    { intros row [val rs'] Hr (I1 & I2 & I3 & I4 & I5). pose proof (st_le B W TT SQ row ltac:(lia)) as (S1 & S2 & S3).
      wpb. apply wp_get with (d := 0); [lia|]. wpb. apply wp_get with (d := 0); [lia|]. fold (st B row). fold (st B (S row)).
      destruct (Nat.ltb_spec (st B (S row)) (st B row)); [lia|]. wpb.
      eapply wp_conseq with (P := fun r => (0 <= r)%R).
      { destruct (Nat.eqb_spec (st B (S row)) (st B row)); [apply wp_ok; cbn; lra|apply rmax_nonneg; [lia|exact (eq_ind_r (fun x => st B (S row) <= x) S3 I1)]]. }
      intros tmp P0. pose proof (mis0_re tmp P0) as P1. set (f := (/ (if mis0 MRe tmp then 1 else tmp))%R). assert (Pf : (0 < f)%R) by (apply Rinv_0_lt_compat; auto).
      wpb. apply wp_set; [nl|]. wpb.
      eapply wp_conseq; [apply for_range_inv with (I := fun k v => length v = length (vals B) /\ (forall k', st B row <= k' < k -> nthr k' v = (VL k' * f)%R) /\
        (forall k', k' < st B row \/ k <= k' -> nthr k' v = nthr k' val)); [lia| |]|].
      - split; [auto|]. split; [intros; lia|auto].
      - intros k v Hk (J1 & J2 & J3). wpb. apply wp_get with (d := 0%R); [nl|]. apply wp_set; [nl|].
        split; [now rewrite upd_length|]. split; intros k' Hk'; cbn [T ORe] in *.
        + destruct (Nat.eq_dec k' k) as [->|Hne]; [rewrite nth_upd_eq by nl; rewrite J3, I5 by lia; reflexivity|rewrite nth_upd_neq by auto; apply J2; lia].
        + rewrite nth_upd_neq by lia. apply J3. lia.
      - intros v (J1 & J2 & J3). apply wp_ok. cbn [M MRe] in *. split; [auto|]. split; [now rewrite upd_length|]. split; [|split].
        + intros i Hi. destruct (Nat.eq_dec i row) as [->|Hne]; [rewrite nth_upd_eq by lia; auto|rewrite nth_upd_neq by auto; apply I3; lia].
        + intros i k Hi Hk. destruct (Nat.eq_dec i row) as [->|Hne]; [rewrite nth_upd_eq by lia; apply J2; lia|rewrite nth_upd_neq by auto].
          rewrite J3. { apply I4; auto; lia. } pose proof (st_le2 (S i) row ltac:(lia) ltac:(lia)). lia.
        + intros k Hk. rewrite J3 by lia. apply I5. lia. }
    intros [val rs'] (I1 & I2 & I3 & I4 & _). cbn [M MRe T ORe] in *. rewrite (nnz_ok B W TT) by auto. wpb. apply wp_ok. unfold nnz_of. wpb.
    eapply wp_conseq with (P := fun cs' => length cs' = length cs /\ forall j, j < n -> (0 < nthr j cs')%R).
    { destruct symm.
      - destruct (Nat.leb_spec n (length rs')); [|lia]. destruct (Nat.leb_spec n (length cs)); [|lia]. cbn [andb]. apply wp_ok. split.
        + rewrite app_length, firstn_length, skipn_length. lia.
        + intros j Hj. rewrite app_nth1 by (rewrite firstn_length; lia). rewrite nth_firstn_lt by auto. auto.
      - unfold fill_n. destruct (Nat.leb_spec n (length cs)); [|lia]. wpb. apply wp_ok. wpb.
        eapply wp_conseq; [apply for_range_inv with (I := fun _ cs' => length cs' = length cs /\ forall j, j < n -> (0 <= nthr j cs')%R); [lia| |]|].
        + split; [rewrite app_length, repeat_length, skipn_length; lia|]. intros j Hj. rewrite app_nth1 by (rewrite repeat_length; lia). rewrite nth_repeat. cbn. lra.
        + intros k c Hk (J & J'). pose proof (wf_range ORe B W k ltac:(lia)) as R. unfold ix in R. wpb. apply wp_get with (d := 0); [lia|]. wpb. apply wp_get with (d := 0%R); [nl|].
          wpb. apply wp_get with (d := 0%R); [nl|]. apply wp_set; [nl|]. split; [now rewrite upd_length|]. cbn [M MRe T ORe] in *. intros j Hj. rewrite nth_upd by lia. destruct (Nat.eqb_spec j (nth k (indices B) 0)); [|auto].
          rewrite mmax_re. apply Rle_trans with (nthr (nth k (indices B) 0) c); [apply J'; lia|apply Rmax_r].
        + intros c (J & J'). cbv beta. eapply wp_conseq; [apply for_range_inv with (I := fun k cs' => length cs' = length cs /\ (forall j, j < k -> (0 < nthr j cs')%R) /\ forall j, j < n -> (0 <= nthr j cs')%R); [lia| |]|].
          * split; [auto|]. split; [intros; lia|auto].
          * intros k c' Hk (Q1 & Q2 & Q3). wpb. apply wp_get with (d := 0%R); [nl|]. apply wp_set; [nl|]. cbn [M MRe T ORe] in *. split; [now rewrite upd_length|].
            assert (PP : (0 < (if mis0 MRe (nthr k c') then 1 else / nthr k c'))%R).
            { pose proof (mis0_re (nthr k c') (Q3 k ltac:(lia))) as X. destruct (mis0 MRe (nthr k c')); [lra|]. apply Rinv_0_lt_compat; auto. }
            split; intros j Hj; rewrite nth_upd by lia; destruct (Nat.eqb_spec j k); auto; [apply Q2; lia|left; auto].
          * intros c' (Q1 & Q2 & _). auto. }
    intros cs' (J & J'). wpb.
    eapply wp_conseq; [apply for_range_inv with (I := fun k v => length v = length (vals B) /\ (forall k', k' < k -> nthr k' v = (nthr k' val * nthr (ix B k') cs')%R) /\
      (forall k', k <= k' -> nthr k' v = nthr k' val)); [lia| |]|].
    - split; [auto|]. split; [intros; lia|auto].
    - intros k v Hk (Q1 & Q2 & Q3). pose proof (wf_range ORe B W k ltac:(lia)) as R. unfold ix in R. wpb. apply wp_get with (d := 0); [lia|]. wpb. apply wp_get with (d := 0%R); [nl|].
      wpb. apply wp_get with (d := 0%R); [nl|]. apply wp_set; [nl|]. cbn [M MRe T ORe] in *. split; [now rewrite upd_length|].
      split; intros k' Hk'; (destruct (Nat.eq_dec k' k) as [->|Hne]; [|rewrite nth_upd_neq by auto]).
      + rewrite nth_upd_eq by nl. rewrite Q3 by lia. reflexivity.
      + apply Q2; lia.
      + lia.
      + apply Q3. lia.
    - intros v (Q1 & Q2 & _). apply wp_ok. split; [auto|]. cbn [vals]. intros i k Hi Hk. pose proof (st_le2 (S i) n ltac:(lia) ltac:(lia)).
      rewrite Q2 by lia. rewrite (I4 i k Hi Hk). cbn. ring.
  Qed.

  Lemma nth_rep1 : forall m j, j < m -> nthr j (repeat 1%R m) = 1%R.
  Proof. induction m; intros [|j] H; cbn; try lia; auto. apply IHm. lia. Qed.

  (** ** The iterative scaling *)
  Hypothesis RNE : forall i, i < n -> st B i < st B (S i).
  Variable symm : bool.
  Hypothesis CNE : symm = false -> forall j, j < n -> exists k, k < st B n /\ ix B k = j.
  Variable mdiff : R -> R.
  Variable mbig : R -> bool.

  (** Symmetric magnitudes, needed for the bound of the symmetric mode. *)
  Definition sym_mag : Prop := symm = true -> forall i k, i < n -> st B i <= k < st B (S i) ->
    exists k', st B (ix B k) <= k' < st B (S (ix B k)) /\ ix B k' = i /\ Rabs (VL k') = Rabs (VL k).
  Definition bnd1 (val : list R) : Prop := forall i k, i < n -> st B i <= k < st B (S i) -> (Rabs (nthr k val) <= 1)%R.
  Definition val_of (s : list R * list R * list R * list R * list R * list R * list R) : list R := fst (fst (fst (fst (fst (fst s))))).

  Lemma bnd_sq : forall a t, (0 <= a)%R -> (a <= t)%R -> (0 < t)%R -> (a * (/ sqrt t * / sqrt t) <= 1)%R.
  Proof.
    intros a t H1 H2 H3. assert (0 < sqrt t)%R by now apply sqrt_lt_R0.
    replace (a * (/ sqrt t * / sqrt t))%R with (a / t)%R.
    - apply Rmult_le_reg_r with t; [auto|]. unfold Rdiv. rewrite Rmult_assoc, Rinv_l by lra. lra.
    - unfold Rdiv. rewrite <- Rinv_mult, sqrt_sqrt by lra. reflexivity.
  Qed.
  Lemma bnd_mix : forall a l c, (0 <= a)%R -> (a * (l * l) <= 1)%R -> (a * (c * c) <= 1)%R -> (a * (l * c) <= 1)%R.
  Proof. intros a l c H1 H2 H3. assert (0 <= a * ((l - c) * (l - c)))%R by (apply Rmult_le_pos; [auto|apply Rle_0_sqr]). nra. Qed.

  Definition it_ok (nr nc : nat) (s : list R * list R * list R * list R * list R * list R * list R) : Prop :=
    let '(val, rs, cs, lrs, lcs, qrs, qcs) := s in
    length val = length (vals B) /\ length rs = nr /\ length cs = nc /\ length lrs = n /\ length qrs = n /\ (symm = false -> length lcs = n /\ length qcs = n) /\
    (forall i, i < n -> (0 < nthr i rs)%R) /\ (symm = false -> forall i, i < n -> (0 < nthr i cs)%R) /\
    vscaled val (fun i j => (nthr i rs * nthr j (if symm then rs else cs))%R).

  Lemma st_row_k : forall i k, i < n -> st B i <= k < st B (S i) -> k < length (vals B) /\ k < length (indices B) /\ ix B k < n.
  Proof. intros i k Hi Hk. pose proof (st_le B W TT SQ i Hi). pose proof (ix_lt B W SQ i k Hi Hk). lia. Qed.

  Lemma iter_pass_rel : forall nr nc s, n <= nr -> n <= nc -> it_ok nr nc s ->
    wp (iter_pass MRe Rinv Rmult sqrt mdiff mbig symm B s) (fun r => it_ok nr nc (snd r) /\ (sym_mag -> bnd1 (val_of (snd r)))).
  Proof.
    intros nr nc [[[[[[val rs] cs] lrs] lcs] qrs] qcs] N1 N2 (L1 & L2 & L3 & L4 & L5 & L6 & PR & PC & VS). unfold iter_pass. cbv zeta.
    match goal with |- context [?t] => match t with (if symm then lcs else _) => set (lcs0 := t) end end.
    assert (L6a : symm = false -> length lcs0 = n /\ forall j, (0 <= nthr j lcs0)%R).
    { intros E. unfold lcs0. rewrite E, map_length. split; [now apply L6|]. intros j. clear - lcs. revert j. cbn [M MRe T ORe]. induction lcs as [|x l IH]; intros [|j]; cbn; try lra. apply IH. } clearbody lcs0.
    match goal with |- context [?t] => match t with (if symm then qcs else _) => set (qcs0 := t) end end. assert (L6b : symm = false -> length qcs0 = n).
    { intros E. unfold qcs0. rewrite E, map_length. now apply L6. } clearbody qcs0. clear L6 lcs qcs.
    wpb. eapply wp_conseq; [apply for_range_inv with (I := fun row '(lrs, lcs) => length lrs = n /\ (forall i, i < row -> (0 < nthr i lrs)%R /\ forall k, st B i <= k < st B (S i) -> (Rabs (nthr k val) * (nthr i lrs * nthr i lrs) <= 1)%R) /\
      (symm = false -> length lcs = n /\ (forall j, (0 <= nthr j lcs)%R) /\ forall k, k < st B row -> (0 < nthr (ix B k) lcs)%R /\ (Rabs (nthr k val) <= nthr (ix B k) lcs)%R)); [lia| |]|].
    { split; [auto|]. split; [intros; lia|]. intros E. destruct (L6a E). split; [auto|]. split; [auto|]. intros k Hk. pose proof (wf_first ORe B W) as F. exfalso. unfold st in *. lia. }
    { intros row [lrs' lcs'] Hr (I1 & I2 & I3). wpb.
      eapply wp_conseq; [apply over_row_k with (I := fun k '(tmp, lcs) => (0 <= tmp)%R /\ (st B row < k -> (0 < tmp)%R) /\ (forall k', st B row <= k' < k -> (Rabs (nthr k' val) <= tmp)%R) /\
        (symm = false -> length lcs = n /\ (forall j, (0 <= nthr j lcs)%R) /\ forall k', k' < k -> (0 < nthr (ix B k') lcs)%R /\ (Rabs (nthr k' val) <= nthr (ix B k') lcs)%R)); [lia| |]|].
      - split; [cbn; lra|]. split; [intros; lia|]. split; [intros; lia|exact I3].
      - intros k [tmp lc] Hk (J1 & J2 & JB & J3). destruct (st_row_k row k ltac:(lia) Hk) as (K1 & K2 & K3). wpb. apply wp_get with (d := 0%R); [nl|].
        assert (VK : (0 < Rabs (nthr k val))%R).
        { apply Rabs_pos_lt. rewrite (VS row k ltac:(lia) Hk). apply Rmult_integral_contrapositive_currified; [apply (vl_nz row); [lia|auto]|].
          apply Rgt_not_eq. apply Rmult_lt_0_compat; [apply PR; lia|]. destruct symm; [apply PR; auto|apply PC; auto]. }
        assert (MX : forall x : R, (0 < mmax MRe (mabs MRe (nthr k val)) x)%R).
        { intros x. rewrite mmax_re. cbn [mabs MRe]. apply Rlt_le_trans with (Rabs (nthr k val)); [auto|apply Rmax_l]. }
        assert (X0 : (0 <= mmax MRe (mabs MRe (nthr k val)) tmp)%R /\ (st B row < S k -> (0 < mmax MRe (mabs MRe (nthr k val)) tmp)%R)) by (split; [left|intros _]; apply MX).
        assert (X3 : forall k', st B row <= k' < S k -> (Rabs (nthr k' val) <= mmax MRe (mabs MRe (nthr k val)) tmp)%R).
        { intros k' Hk'. rewrite mmax_re. cbn [mabs MRe]. destruct (Nat.eq_dec k' k) as [->|Hne]; [apply Rmax_l|]. apply Rle_trans with tmp; [apply JB; lia|apply Rmax_r]. }
        destruct X0 as (X1 & X2). destruct symm; [apply wp_ok; split; [exact X1|]; split; [exact X2|]; split; [exact X3|discriminate]|]. destruct (J3 eq_refl) as (Q1 & Q2 & Q3).
        wpb. apply wp_get with (d := 0%R); [nl|]. wpb. apply wp_set; [nl|]. apply wp_ok. split; [exact X1|]. split; [exact X2|]. split; [exact X3|]. intros _.
        cbn [M MRe T ORe] in *. split; [now rewrite upd_length|]. split.
        + intros j. rewrite nth_upd by nl. destruct (Nat.eqb_spec j (ix B k)); [left; apply MX|apply Q2].
        + intros k' Hk'. rewrite nth_upd by nl. destruct (Nat.eqb_spec (ix B k') (ix B k)) as [E|E].
          * split; [apply MX|]. rewrite mmax_re. cbn [mabs MRe]. destruct (Nat.eq_dec k' k) as [->|Hne]; [apply Rmax_l|]. apply Rle_trans with (nthr (ix B k) lc); [rewrite <- E; apply Q3; lia|apply Rmax_r].
          * apply Q3. assert (k' <> k) by congruence. lia.
      - intros [tmp lc] (J1 & J2 & JB & J3). wpb. apply wp_set; [nl|]. apply wp_ok. cbn [M MRe T ORe] in *. rewrite upd_length. split; [auto|]. split; [|exact J3].
        intros i Hi. rewrite nth_upd by nl. destruct (Nat.eqb_spec i row) as [->|]; [|apply I2; lia]. assert (PT : (0 < tmp)%R) by (apply J2, RNE; lia).
        split; [now apply Rinv_0_lt_compat, sqrt_lt_R0|]. intros k Hk. apply bnd_sq; [apply Rabs_pos|apply JB; auto|auto]. }
    intros [lrs' lcs'] (I1 & I2 & I3). wpb.
    eapply wp_conseq; [apply for_range_inv with (I := fun i r => length r = nr /\ (forall j, j < i -> nthr j r = (nthr j rs * nthr j lrs')%R) /\ forall j, i <= j -> nthr j r = nthr j rs); [lia| |]|].
    { split; [auto|]. split; [intros; lia|auto]. }
    { intros i r Hi (J1 & J2 & J3). wpb. apply wp_get with (d := 0%R); [nl|]. wpb. apply wp_get with (d := 0%R); [nl|]. apply wp_set; [nl|].
      cbn [M MRe T ORe mmul] in *. split; [now rewrite upd_length|]. split; intros j Hj; rewrite nth_upd by nl; destruct (Nat.eqb_spec j i) as [->|Hne].
      - rewrite J3 by lia. reflexivity.
      - apply J2. lia.
      - lia.
      - apply J3. lia. }
    intros rs' (J1 & J2 & _). wpb.
    eapply wp_conseq with (P := fun '(lcs2, cs') => length cs' = nc /\ (symm = false -> length lcs2 = n /\
      (forall j, j < n -> (0 < nthr j lcs2)%R /\ nthr j cs' = (nthr j cs * nthr j lcs2)%R) /\
      forall k, k < st B n -> (Rabs (nthr k val) * (nthr (ix B k) lcs2 * nthr (ix B k) lcs2) <= 1)%R)).
    { destruct symm; [apply wp_ok; split; [auto|discriminate]|]. destruct (I3 eq_refl) as (Q1 & Q2 & Q3).
      eapply wp_conseq; [apply for_range_inv with (I := fun i '(lcs2, cs') => length lcs2 = n /\ length cs' = nc /\
        (forall j, j < i -> (0 < nthr j lcs2)%R /\ nthr j lcs2 = (/ sqrt (nthr j lcs'))%R /\ nthr j cs' = (nthr j cs * nthr j lcs2)%R) /\ (forall j, i <= j -> nthr j lcs2 = nthr j lcs' /\ nthr j cs' = nthr j cs)); [lia| |]|].
      - split; [auto|]. split; [auto|]. split; [intros; lia|auto].
      - intros i [lc c] Hi (R1 & R2 & R3 & R4). wpb. apply wp_get with (d := 0%R); [nl|]. wpb. apply wp_set; [nl|]. wpb. apply wp_get with (d := 0%R); [nl|].
        wpb. apply wp_set; [nl|]. apply wp_ok. cbn [M MRe T ORe mmul] in *. rewrite !upd_length. split; [auto|]. split; [auto|].
        split; intros j Hj; rewrite !nth_upd by nl; destruct (Nat.eqb_spec j i) as [->|Hne].
        + destruct (R4 i ltac:(lia)) as (-> & ->). split; [|split; reflexivity]. apply Rinv_0_lt_compat, sqrt_lt_R0. destruct (CNE eq_refl i ltac:(lia)) as (k & Hk & <-). apply Q3; auto.
        + apply R3. lia.
        + lia.
        + apply R4. lia.
      - intros [lc c] (R1 & R2 & R3 & _). split; [auto|]. intros _. split; [auto|]. split; [intros j Hj; split; apply R3; auto|].
        intros k Hk. destruct (Q3 k Hk) as (Q4 & Q5). assert (IK : ix B k < n) by (pose proof (wf_range ORe B W k) as X; rewrite SQ in X; apply X; exact Hk).
        destruct (R3 _ IK) as (_ & -> & _). apply bnd_sq; [apply Rabs_pos|auto|auto]. }
    intros [lcs2 cs'] (J3 & J4). wpb.
    set (cf := fun j => nthr j (if symm then lrs' else lcs2)).
    eapply wp_conseq; [apply for_range_inv with (I := fun row '(v, qrs, qcs) => length v = length (vals B) /\ length qrs = n /\ (symm = false -> length qcs = n) /\
      (forall i k, i < row -> st B i <= k < st B (S i) -> nthr k v = (nthr k val * (nthr i lrs' * cf (ix B k)))%R) /\ (forall k, st B row <= k -> nthr k v = nthr k val)); [lia| |]|].
    { split; [auto|]. split; [auto|]. split; [auto|]. split; [intros; lia|auto]. }
    { intros row [[v qr] qc] Hr (Q1 & Q2 & Q3 & Q4 & Q5). wpb. apply wp_get with (d := 0%R); [nl|]. wpb.
      eapply wp_conseq; [apply over_row_k with (I := fun k '(_, v', qc) => length v' = length (vals B) /\ (symm = false -> length qc = n) /\
        (forall k', st B row <= k' < k -> nthr k' v' = (nthr k' val * (nthr row lrs' * cf (ix B k')))%R) /\ (forall k', k' < st B row \/ k <= k' -> nthr k' v' = nthr k' v)); [lia| |]|].
      - split; [auto|]. split; [auto|]. split; [intros; lia|auto].
      - intros k [[tmp v'] qc'] Hk (R1 & R2 & R3 & R4). destruct (st_row_k row k ltac:(lia) Hk) as (K1 & K2 & K3). wpb.
        eapply wp_conseq with (P := fun c => c = cf (ix B k)).
        { unfold cf. destruct symm; [apply wp_get with (d := 0%R); [nl|reflexivity]|destruct (J4 eq_refl); apply wp_get with (d := 0%R); [nl|reflexivity]]. }
        intros c ->. wpb. apply wp_get with (d := 0%R); [nl|]. wpb. apply wp_set; [nl|]. cbv zeta. cbn [M MRe T ORe mmul mabs] in *.
        set (w := (nthr k v' * (nthr row lrs' * cf (ix B k)))%R).
        assert (RES : length (upd v' k w) = length (vals B) /\
          (forall k', st B row <= k' < S k -> nthr k' (upd v' k w) = (nthr k' val * (nthr row lrs' * cf (ix B k')))%R) /\ (forall k', k' < st B row \/ S k <= k' -> nthr k' (upd v' k w) = nthr k' v)).
        { split; [now rewrite upd_length|]. split; intros k' Hk'; rewrite nth_upd by nl; destruct (Nat.eqb_spec k' k) as [->|Hne].
          - unfold w. rewrite R4, Q5 by lia. reflexivity.
          - apply R3. lia.
          - lia.
          - apply R4. lia. }
        destruct RES as (RES1 & RES2 & RES3).
        destruct symm; [apply wp_ok; split; [exact RES1|split; [discriminate|split; [exact RES2|exact RES3]]]|]. specialize (R2 eq_refl). wpb. apply wp_get with (d := 0%R); [nl|]. wpb. apply wp_set; [nl|].
        apply wp_ok. split; [exact RES1|split; [intros _; rewrite upd_length; exact R2|split; [exact RES2|exact RES3]]].
      - intros [[tmp v'] qc'] (R1 & R2 & R3 & R4). wpb. apply wp_set; [nl|]. apply wp_ok. rewrite upd_length. split; [auto|]. split; [auto|]. split; [auto|]. split.
        + intros i k Hi Hk. destruct (Nat.eq_dec i row) as [->|Hne]; [apply R3; lia|]. rewrite R4. { apply Q4; auto; lia. } pose proof (st_le2 (S i) row ltac:(lia) ltac:(lia)). lia.
        + intros k Hk. pose proof (st_le B W TT SQ row ltac:(lia)). rewrite R4 by lia. apply Q5. lia. }
    intros [[val' qrs'] qcs'] (Q1 & Q2 & Q3 & Q4 & _). wpb.
    eapply wp_conseq; [apply for_range_inv with (I := fun _ _ => True); [lia|auto|]|].
    { intros i tmp Hi _. wpb. apply wp_get with (d := 0%R); [nl|]. apply wp_ok. auto. }
    intros rr _. wpb. eapply wp_conseq with (P := fun _ => True).
    { destruct symm; [apply wp_ok; auto|]. specialize (Q3 eq_refl). apply for_range_inv with (I := fun _ _ => True); [lia|auto|].
      intros i tmp Hi _. wpb. apply wp_get with (d := 0%R); [nl|]. apply wp_ok. auto. }
    intros rc _. apply wp_ok. cbn [snd]. split.
    2:{ intros SY i k Hi Hk. unfold sym_mag in SY. cbn [val_of fst]. destruct (st_row_k i k Hi Hk) as (K1 & K2 & K3). rewrite (Q4 i k Hi Hk).
      assert (PL : (0 < nthr i lrs')%R) by (apply I2; auto).
      assert (PC' : (0 < cf (ix B k))%R) by (unfold cf; destruct symm; [apply I2; auto|apply (J4 eq_refl); auto]).
      rewrite !Rabs_mult, (Rabs_pos_eq (nthr i lrs')), (Rabs_pos_eq (cf (ix B k))) by lra.
      apply bnd_mix; [apply Rabs_pos|apply I2; auto|]. unfold cf. destruct symm.
      - destruct (SY eq_refl i k Hi Hk) as (k' & A1 & A2 & A3).
        replace (Rabs (nthr k val)) with (Rabs (nthr k' val)); [apply I2; auto|].
        rewrite (VS i k Hi Hk), (VS (ix B k) k' K3 A1), A2, !Rabs_mult, A3. ring.
      - apply (proj2 (proj2 (J4 eq_refl))). pose proof (st_le2 (S i) n ltac:(lia) ltac:(lia)). lia. }
    unfold it_ok. split; [auto|]. split; [auto|]. split; [auto|]. split; [auto|]. split; [auto|].
    split. { intros E. split; [apply J4; auto|apply Q3; auto]. }
    split. { intros i Hi. rewrite J2 by auto. apply Rmult_lt_0_compat; [auto|apply I2; auto]. }
    split. { intros E i Hi. destruct (proj1 (proj2 (J4 E)) i Hi) as (X1 & ->). apply Rmult_lt_0_compat; auto. }
    intros i k Hi Hk. destruct (st_row_k i k Hi Hk) as (K1 & K2 & K3). rewrite (Q4 i k Hi Hk), (VS i k Hi Hk). unfold cf. destruct symm.
    - rewrite !J2 by auto. ring.
    - rewrite J2 by auto. destruct (proj1 (proj2 (J4 eq_refl)) (ix B k) K3) as (_ & ->). cbn [M MRe T ORe]. ring.
  Qed.

  Lemma iter_loop_rel : forall c nr nc s, n <= nr -> n <= nc -> it_ok nr nc s ->
    wp (iter_loop MRe Rinv Rmult sqrt mdiff mbig c symm B s) (fun s' => it_ok nr nc s' /\ (sym_mag -> 0 < c \/ bnd1 (val_of s) -> bnd1 (val_of s'))).
  Proof.
    induction c; intros nr nc s N1 N2 H; cbn [iter_loop]; [apply wp_ok; split; [auto|]; intros _ [X|X]; [lia|auto]|]. wpb.
    eapply wp_conseq; [apply iter_pass_rel with (nr := nr) (nc := nc); eauto|]. intros [go s'] (H' & HB). cbn [snd] in H', HB. destruct go; [|apply wp_ok; auto].
    eapply wp_conseq; [apply IHc; [exact N1|exact N2|exact H']|]. intros s2 (X1 & X2). split; auto.
  Qed.

  Lemma iterative_rel : forall um (rs cs : list R), (forall k, length (um k) = k) -> n <= length rs -> n <= length cs ->
    wp (iterative_scale MRe 1%R Rinv Rmult sqrt mdiff mbig um symm B rs cs) (fun '(B', rs', cs') => scaled_by B B' rs' cs' /\ length rs' = length rs /\ length cs' = length cs /\ psize B' = n /\ ssize B' = ssize B /\
      ind_start B' = ind_start B /\ indices B' = indices B /\ length (vals B') = length (vals B) /\ (sym_mag -> bnd1 (vals B')) /\ (symm = true -> forall i, i < n -> nthr i cs' = nthr i rs')).
  Proof.
    intros um rs cs LM L1 L2. unfold iterative_scale. cbv zeta. unfold fill_n. cbn [M MRe T ORe] in *. destruct (Nat.leb_spec n (length rs)); [|lia]. wpb. apply wp_ok.
    wpb. eapply wp_conseq with (P := fun cs' => length cs' = length cs /\ (symm = false -> forall j, j < n -> nthr j cs' = 1%R)).
    { destruct symm; [apply wp_ok; split; [auto|discriminate]|]. destruct (Nat.leb_spec n (length cs)); [|lia]. apply wp_ok. split; [rewrite app_length, repeat_length, skipn_length; lia|].
      intros _ j Hj. rewrite app_nth1 by (rewrite repeat_length; lia). now apply nth_rep1. }
    intros cs1 (J1 & J2). wpb.
    assert (R0 : forall j, j < n -> nthr j (repeat 1%R n ++ skipn n rs) = 1%R).
    { intros j Hj. rewrite app_nth1 by (rewrite repeat_length; lia). now apply nth_rep1. }
    eapply wp_conseq; [apply iter_loop_rel with (nr := length rs) (nc := length cs); auto|].
    { unfold it_ok. rewrite !LM. split; [auto|]. split; [rewrite app_length, repeat_length, skipn_length; lia|]. split; [auto|]. split; [auto|]. split; [auto|].
      split; [intros ->; auto|]. split; [intros i Hi; rewrite R0 by auto; lra|]. split; [intros E i Hi; rewrite J2 by auto; lra|].
      intros i k Hi Hk. destruct (st_row_k i k Hi Hk) as (K1 & K2 & K3). rewrite R0 by auto. destruct symm; [rewrite R0 by auto|rewrite J2 by auto]; cbn [M MRe T ORe]; ring. }
    intros [[[[[[val rs'] cs'] lrs] lcs] qrs] qcs] ((Q1 & Q2 & Q3 & _ & _ & _ & Q4 & Q5 & Q6) & QB). wpb.
    eapply wp_conseq with (P := fun c => length c = length cs /\ forall j, j < n -> nthr j c = nthr j (if symm then rs' else cs')).
    { destruct symm; [|apply wp_ok; auto]. cbn [M MRe T ORe] in *. destruct (Nat.leb_spec n (length rs')); [|lia]. destruct (Nat.leb_spec n (length cs')); [|lia]. cbn [andb]. apply wp_ok.
      split; [rewrite app_length, firstn_length, skipn_length; lia|]. intros j Hj. rewrite app_nth1 by (rewrite firstn_length; lia). now apply nth_firstn_lt. }
    intros cs2 (J3a & J3). apply wp_ok.
    enough (SB : scaled_by B (mkCS (O := ORe) n (ssize B) (ind_start B) (indices B) val) rs' cs2) by (repeat (split; [first [exact SB|exact (fun SY => QB SY (or_introl (Nat.lt_0_succ 4)))|auto]|]); intros Es i Hi; rewrite J3 by auto; now rewrite Es). split.
    - intros i Hi. split; [auto|]. rewrite J3 by auto. destruct symm; auto.
    - intros i k Hi Hk. destruct (st_row_k i k Hi Hk) as (K1 & K2 & K3). cbn [vals M MRe T ORe]. rewrite J3 by auto. refine (eq_trans (Q6 i k Hi Hk) _). cbn [M MRe T ORe]. ring.
  Qed.
End B.

(** Every choice of a priori scaling. *)
Lemma pre_rel : forall (mdiff : R -> R) (mbig : R -> bool) um symm ps (B : CS ORe) (s0 t0 : list R) B2 s1 t1, (forall k, length (um k) = k) -> psize B <= length s0 -> psize B <= length t0 ->
  wf B -> tight B -> ssize B = psize B -> (forall i j v, i < psize B -> stored B i j v -> v <> 0%R) ->
  (forall i, i < psize B -> exists j v, stored B i j v) -> (forall j, j < psize B -> exists i v, i < psize B /\ stored B i j v) ->
  pre_scaling MRe 1%R Rinv Rmult sqrt mdiff mbig um symm ps B s0 t0 = Ok (B2, s1, t1) -> scaled_by B B2 s1 t1.
Proof.
  intros mdiff mbig um symm ps B s0 t0 B2 s1 t1 LM L1 L2 W TT SQ NZ RNE CNE E.
  destruct (Z.eqb_spec ps 0) as [->|N0]; [eapply eye_rel; [| | | | |exact E]; auto|].
  unfold pre_scaling in E. destruct (Z.eqb_spec ps 0); [lia|]. destruct (Z.eqb_spec ps 1).
  - pose proof (extreme_rel B W TT SQ symm s0 t0 L1 L2) as X. apply wp_inv in X. destruct X as ([[B' s'] t'] & EX & X). rewrite EX in E. injection E as <- <- <-. exact X.
  - assert (R1 : forall i, i < psize B -> st B i < st B (S i)).
    { intros i Hi. destruct (RNE i Hi) as (j & v & S0). apply stored_at in S0. destruct S0 as (k & K & _). lia. }
    assert (C1 : symm = false -> forall j, j < psize B -> exists k, k < st B (psize B) /\ ix B k = j).
    { intros _ j Hj. destruct (CNE j Hj) as (i & v & Hi & S0). apply stored_at in S0. destruct S0 as (k & K & K2 & _). exists k. split; [|auto].
      pose proof (st_le2 B W (S i) (psize B) ltac:(lia) ltac:(lia)). lia. }
    pose proof (iterative_rel B W TT SQ NZ R1 symm C1 mdiff mbig um s0 t0 LM L1 L2) as X. apply wp_inv in X. destruct X as ([[B' s'] t'] & EX & X). rewrite EX in E. injection E as <- <- <-. exact (proj1 X).
Qed.

(** ** Products over rearrangements *)
Lemma prod_list : forall n f, prod_below n f = fold_right Rmult 1%R (map f (seq 0 n)).
Proof.
  assert (A : forall l x, fold_right Rmult 1%R (l ++ [x]) = (fold_right Rmult 1%R l * x)%R) by (induction l as [|y l IH]; intros x; cbn; [lra|rewrite IH; ring]).
  induction n; intros f; [reflexivity|]. rewrite seq_S, map_app. cbn [prod_below map Nat.add]. rewrite A, IHn. reflexivity.
Qed.
Lemma prod_perm : forall n f g, (forall i, i < n -> f i < n) -> (forall i j, i < n -> j < n -> f i = f j -> i = j) -> prod_below n (fun i => g (f i)) = prod_below n g.
Proof.
  intros n f g R I. rewrite !prod_list.
  assert (P : Permutation (map f (seq 0 n)) (seq 0 n)).
  { apply Permutation_sym, is_perm_Permutation. split; [now rewrite map_length, seq_length|].
    assert (E : forall i, i < n -> nth i (map f (seq 0 n)) 0 = f i) by (intros i Hi; rewrite nth_indep with (d' := f 0) by (rewrite map_length, seq_length; lia); rewrite map_nth, seq_nth by lia; reflexivity).
    split; [intros i Hi; rewrite E by auto; auto|]. intros i j Hi Hj. rewrite !E by auto. auto. }
  rewrite <- (map_map f g). pose proof (Permutation_map g P) as PM. clear - PM. induction PM; cbn; [reflexivity|now rewrite IHPM|ring|now transitivity (fold_right Rmult 1%R l')].
Qed.
Lemma prod_mul : forall n f g, prod_below n (fun i => (f i * g i)%R) = (prod_below n f * prod_below n g)%R.
Proof. induction n; intros; cbn; [lra|]. rewrite IHn. ring. Qed.
Lemma prod_le : forall n f g, (forall i, i < n -> (0 <= f i <= g i)%R) -> (0 <= prod_below n f <= prod_below n g)%R.
Proof.
  induction n; intros f g H; cbn; [lra|]. destruct (IHn f g) as (A & B); [intros; apply H; lia|]. destruct (H n ltac:(lia)) as (C & D).
  split; [now apply Rmult_le_pos|now apply Rmult_le_compat].
Qed.
Lemma prod_ext : forall n f g, (forall i, i < n -> f i = g i) -> prod_below n f = prod_below n g.
Proof. induction n; intros f g H; cbn; [reflexivity|]. rewrite (IHn f g), H by auto. reflexivity. Qed.
Lemma fin_choice : forall (X : Type) (d : X) n (P : nat -> X -> Prop), (forall k, k < n -> exists v, P k v) -> exists x, forall k, k < n -> P k (x k).
Proof.
  intros X d n P. induction n; intros H; [exists (fun _ => d); intros; lia|]. destruct IHn as (x & Hx); [auto|]. destruct (H n ltac:(lia)) as (v & Hv).
  exists (fun k => if k =? n then v else x k). intros k Hk. destruct (Nat.eqb_spec k n) as [->|]; [auto|]. apply Hx. lia.
Qed.

(** If [D] and [U] bound every entry and are attained along [(P k, Q k)], no other choice of one
    entry per column in different rows has a larger product. *)
Lemma prod_maximal : forall m (st : nat -> nat -> R -> Prop) (D U : nat -> R) (P Q : nat -> nat) (x : nat -> R),
  (forall i, i < m -> (0 < D i)%R /\ (0 < U i)%R) -> (forall i j v, i < m -> j < m -> st i j v -> (Rabs (D i * v * U j) <= 1)%R) ->
  (forall k, k < m -> P k < m /\ Q k < m) -> (forall i j, i < m -> j < m -> P i = P j -> i = j) -> (forall i j, i < m -> j < m -> Q i = Q j -> i = j) ->
  (forall k, k < m -> Rabs (D (P k) * x k * U (Q k)) = 1%R) ->
  forall f w, (forall j, j < m -> f j < m /\ st (f j) j (w j)) -> (forall j j', j < m -> j' < m -> f j = f j' -> j = j') ->
  (prod_below m (fun j => Rabs (w j)) <= prod_below m (fun k => Rabs (x k)))%R.
Proof.
  intros m st D U P Q x POS BND R IP IQ ONE f w F IF.
  assert (AB : forall a b c, (0 < a)%R -> (0 < c)%R -> Rabs (a * b * c) = (a * Rabs b * c)%R) by (intros; rewrite !Rabs_mult, (Rabs_pos_eq a), (Rabs_pos_eq c) by lra; reflexivity).
  assert (EX : forall k, k < m -> Rabs (x k) = (/ D (P k) * / U (Q k))%R).
  { intros k Hk. specialize (ONE k Hk). destruct (R k Hk) as (R1 & R2). destruct (POS _ R1) as (P1 & _). destruct (POS _ R2) as (_ & P2). rewrite AB in ONE by auto.
    apply Rmult_eq_reg_l with (D (P k)); [|lra]. apply Rmult_eq_reg_r with (U (Q k)); [|lra]. rewrite ONE. field. lra. }
  assert (EW : forall j, j < m -> (0 <= Rabs (w j) <= / D (f j) * / U j)%R).
  { intros j Hj. split; [apply Rabs_pos|]. destruct (F j Hj) as (F1 & F2). specialize (BND _ _ _ F1 Hj F2). destruct (POS _ F1) as (P1 & _). destruct (POS _ Hj) as (_ & P2). rewrite AB in BND by auto.
    apply Rmult_le_reg_l with (D (f j)); [lra|]. apply Rmult_le_reg_r with (U j); [lra|]. replace (D (f j) * (/ D (f j) * / U j) * U j)%R with 1%R by (field; lra). exact BND. }
  rewrite (prod_ext m (fun k => Rabs (x k)) _ EX). eapply Rle_trans; [apply (prod_le m _ _ EW)|]. rewrite !prod_mul.
  rewrite (prod_perm m f (fun i => / D i)%R), (prod_perm m P (fun i => / D i)%R), (prod_perm m Q (fun i => / U i)%R); [apply Rle_refl|..]; auto; intros; first [apply F; auto|apply R; auto].
Qed.
