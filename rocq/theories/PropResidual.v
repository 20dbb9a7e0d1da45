(** * PropResidual: C25 with the norm the code uses (C58): what the reported flag says about the residual. *)
From Coq Require Import List Arith Lia Lra Bool Reals.
From Verif Require Import Base Scalar Spec CSModel CSSpec CSProofs PrecModel PrecSpec PrecProofs Mag PrepSpec
  BuilderModel BuilderSpec BuilderProofs BuilderProofs2 NormModel NormSpec NormProofs PropPrec PropBuilder PropNorm.
Import ListNotations.
Close Scope R_scope. Open Scope nat_scope.

(** The comparisons [res <= betas[0]] and [res > betas[1]]: false, and arbitrary, on values that are not finite. *)
Definition le_bound (lo : R) (d : option R) : bool := match d with Some x => if Rle_dec x lo then true else false | None => false end.
Definition gt_bound (hi : R) (u : bool) (d : option R) : bool := match d with Some x => if Rlt_dec hi x then true else false | None => u end.
(** [norm2] of a real vector in the arithmetic [A]. *)
Definition anorm (A : arith) (v : list R) : option R := norm2 (NR A) (rvec v).

(** Without a largest number the norm is the Euclidean norm for every vector. *)
Lemma anorm_eq : forall A v, bd A = None -> anorm A v = Some (rnorm v).
Proof.
  intros A v E. assert (F : forall x, fits A x) by (intros x; unfold fits; now rewrite E).
  destruct (Forall_dec (fun x => x = 0%R) (fun x => Req_EM_T x 0) v) as [Z|Z].
  - rewrite Forall_forall in Z. rewrite <- gnorm_real. rewrite (gnorm_zero Rabs) by (intros x Hx; rewrite (Z x Hx); apply Rabs_R0).
    apply (norm2_z A (NR A) Some Rabs (NR_abs A)); auto. intros x Hx. rewrite (Z x Hx). apply Rabs_R0.
  - assert (X : exists x, In x v /\ x <> 0%R).
    { clear - Z. induction v as [|a v IH]; [exfalso; apply Z; constructor|]. destruct (Req_EM_T a 0) as [->|N].
      - destruct IH as (x & I & X); [intros F; apply Z; now constructor|]. exists x. split; [now right|auto].
      - exists a. split; [now left|auto]. }
    destruct X as (x & I & X). destruct (C58_norm2_partial A) as (H & _). apply H; auto. exists x. auto.
Qed.

(** Exact real arithmetic: whenever bounded refinement returns, its vector is the iterate of the reported number,
    and if it says "converged" the Euclidean norm of the residual b - A z is at most lo times that of b, if it
    says "diverged" more than hi times; otherwise the limit of the number of iterations is reached.
    The earlier iterates were between the bounds.  Missing: rounding. *)
Theorem C25_residual_partial : forall (A : arith) mulA lo hi u h s vs junk (b : list R) N (x : list R) tran ld,
  bd A = None -> hist_good ORe (abs_new ORe) h -> run ORe (hif_new ORe) h = Some (s, vs) ->
  let a := fold_left (fun a o => fst (spec_step ORe a (snd o))) h (abs_new ORe) in
  let it_ k := refine ORe (spec_solve ORe a tran ld) (fun v => mulA tran v v) (fun z x => Rplus x z) b k in
  let ratio z q := exists y r, mulA tran z z = Ok y /\ r = vmap2 ORe Rminus b y /\ q = (rnorm r / rnorm b)%R in
  aprecs a <> [] -> 1 < N -> 0 < length b -> asz a = Some (length b, length b) -> length x = length b ->
  mul_good ORe mulA tran (length b) -> rnorm b <> 0%R ->
  forall s' z it flag,
  hifir_bounded ORe mulA (option R) (anorm A) (odiv A) oeq0 (le_bound lo) (gt_bound hi u) junk s b N x tran ld = Ret s' (z, it, flag) ->
  1 <= it <= N /\ it_ it = Ok z /\
  (forall k, 1 <= k < it -> exists y q, it_ k = Ok y /\ ratio y q /\ (lo < q <= hi)%R) /\
  match flag with
  | Some true => it < N /\ exists q, ratio z q /\ (q <= lo)%R
  | Some false => it < N /\ exists q, ratio z q /\ (hi < q)%R
  | None => it = N
  end.
Proof.
  intros A mulA lo hi u h s vs junk b N x tran ld BD HG RN a it_ ratio PR N1 LB SZ LX MG NB s' z it flag E.
  assert (I0 : oeq0 (anorm A b) = false).
  { rewrite anorm_eq by auto. cbn [oeq0]. destruct (Req_EM_T (rnorm b) 0); [contradiction|auto]. }
  destruct (C25_truthful ORe mulA (option R) (anorm A) (odiv A) oeq0 (le_bound lo) (gt_bound hi u) h s vs junk b N x tran ld HG RN PR N1 LB SZ LX MG I0)
    as [(s1 & z1 & it1 & fl1 & E1 & TR & LZ)|(s1 & k & E1 & _)]; rewrite E in E1; [|discriminate].
  injection E1 as <- <- <- <-.
  assert (RR : forall y d, relres ORe mulA (option R) (anorm A) (odiv A) b tran (anorm A b) y = Ok d -> exists q, d = Some q /\ ratio y q).
  { intros y d. unfold relres, residual. destruct (mulA tran y y) as [w| |] eqn:EM; cbn [bind]; try discriminate. intros [= <-].
    rewrite !anorm_eq by auto. cbn [odiv]. destruct (Req_EM_T (rnorm b) 0); [contradiction|]. rewrite chk_none by auto.
    eexists. split; [reflexivity|]. exists w, (vmap2 ORe Rminus b w). auto. }
  destruct TR as (T1 & T2 & T3 & T4). split; [exact T1|]. split; [exact T2|]. split.
  - intros k Hk. destruct (T3 k Hk) as (y & d & Y1 & Y2 & Y3 & Y4). destruct (RR y d Y2) as (q & -> & Q). exists y, q.
    split; [exact Y1|]. split; [exact Q|]. cbn [le_bound gt_bound] in Y3, Y4. destruct (Rle_dec q lo); [discriminate|]. destruct (Rlt_dec hi q); [discriminate|]. lra.
  - destruct flag as [[|]|]; auto.
    + destruct T4 as (T4 & d & D1 & D2). split; auto. destruct (RR z d D1) as (q & -> & Q). exists q. split; auto. cbn [le_bound] in D2. destruct (Rle_dec q lo); [auto|discriminate].
    + destruct T4 as (T4 & d & D1 & D2 & D3). split; auto. destruct (RR z d D1) as (q & -> & Q). exists q. split; auto. cbn [gt_bound] in D3. destruct (Rlt_dec hi q); [auto|discriminate].
Qed.
Print Assumptions C25_residual_partial.

(** One level of size one with the factor [d] and nothing else. *)
Definition one_level (d : R) : Prec ORe := mkPrec 1 1
  (@mkCS ORe 1 1 [0;0] [] []) [d] (@mkCS ORe 1 1 [0;0] [] [])
  (@mkCS ORe 1 0 [0;0] [] []) (@mkCS ORe 0 1 [0] [] []) [1%R] [1%R] [0] [0] [0] [0] None None.
Definition rj : nat -> T ORe := fun _ => 0%R.
Definition rid : bool -> list (T ORe) -> list (T ORe) -> res (list (T ORe)) := fun _ x _ => Ok x.
Definition one_hist (d : R) : list ((nat -> T ORe) * op ORe) := [(rj, @OpFactorize ORe 1 1 [one_level d] true)].

Lemma one_good : forall d, hist_good ORe (abs_new ORe) (one_hist d).
Proof.
  intros d. split; [|exact I]. cbn. split; [reflexivity|].
  assert (W : forall A : CS ORe, wfb A = true -> wf A) by apply wfb_wf.
  assert (L1 : level_shape (one_level d)) by (constructor; cbn; try lia; auto 6 using is_inv_dec).
  intros ld tran; split; (split; [exact L1|]); cbn; auto. all: (split; [reflexivity|]); intros; lia.
Qed.

Lemma one_run : forall D nrm ddiv is0 le_lo gt_hi (b d : R) N, 1 < N -> is0 (nrm [b]) = false ->
  exists s, run ORe (hif_new ORe) (one_hist d) = Some (s, [OutUnit]) /\
  (le_lo (ddiv (nrm [(b - (0 + 1 * (1 * b / d)))%R]) (nrm [b])) = true ->
   exists s', hifir_bounded ORe rid D nrm ddiv is0 le_lo gt_hi rj s [b] N [0%R] false 0 = Ret s' ([(0 + 1 * (1 * b / d))%R], 1, Some true)).
Proof.
  intros D nrm ddiv is0 le_lo gt_hi b d N HN Z. destruct N as [|[|N]]; [lia|lia|]. eexists. split; [reflexivity|]. intros Y. eexists.
  lazy -[Rplus Rmult Rminus Ropp Rinv Rdiv IZR]. rewrite Z, Y. reflexivity.
Qed.

(** With a largest number [B] the report can be wrong: for the identity matrix, a preconditioner four times too
    weak and a tiny right-hand side (one divided by it is beyond [B], all other numbers are within the limit) the refinement
    says "converged" after one iteration although the residual is three times the right-hand side; the norm of the right-hand side has overflowed.
    (Dividing by a number that is not finite gives zero.) *)
Theorem C25_tiny_refuted : forall (B lo hi : R) N, (2 <= B)%R -> (0 <= lo)%R -> 1 < N ->
  exists A b s vs s' z, bd A = Some B /\ (0 < b <= B)%R /\
    hist_good ORe (abs_new ORe) (one_hist (/ 4)) /\ run ORe (hif_new ORe) (one_hist (/ 4)) = Some (s, vs) /\
    hifir_bounded ORe rid (option R) (anorm A) (odiv A) oeq0 (le_bound lo) (gt_bound hi false) rj s [b] N [0%R] false 0 = Ret s' ([z], 1, Some true) /\
    (rnorm [(b - z)%R] = 3 * rnorm [b])%R /\ (rnorm [(b - z)%R] <= B)%R.
Proof.
  intros B lo hi N HB HL HN. set (A := mkArith (Some B) (fun _ _ => false) (Some 0%R)). set (b := (/ (2 * B))%R).
  assert (P : (0 < b)%R) by (apply Rinv_0_lt_compat; lra).
  assert (U : (b <= / 2)%R) by (unfold b; apply Rinv_le_contravar; lra).
  assert (BB : (b * B = / 2)%R) by (unfold b; field; lra).
  assert (OB : (1 / b = 2 * B)%R) by (unfold b; field; lra).
  assert (N1 : forall y, (rnorm [y] = Rabs y)%R).
  { intros y. unfold rnorm. cbn [sumR]. rewrite Rplus_0_r. rewrite <- (sqrt_Rsqr_abs y). reflexivity. }
  assert (ZE : (0 + 1 * (1 * b / (/ 4)) = 4 * b)%R) by (field; lra).
  assert (FB : forall y, (Rabs y <= B)%R -> fits A y) by (intros y Hy; exact Hy).
  assert (NB : anorm A [b] = None).
  { unfold anorm. cbn [norm2 rvec map max_element fold_left]. rewrite (NR_abs A) by (apply FB; rewrite Rabs_Rabsolu, Rabs_pos_eq; lra).
    rewrite Rabs_pos_eq by lra. cbn [seq0 NS oeq0]. destruct (Req_EM_T _ 0); [lra|]. cbn [sdiv so NS odiv]. destruct (Req_EM_T _ 0); [lra|].
    rewrite OB. unfold chk at 1. cbn [bd A].
    destruct (Rle_dec (Rabs (2 * B)) B) as [C|C]; [rewrite Rabs_pos_eq in C; lra|]. reflexivity. }
  assert (RE : (b - (0 + 1 * (1 * b / (/ 4))) = - (3 * b))%R) by (rewrite ZE; ring).
  assert (NN : anorm A [(- (3 * b))%R] = Some (3 * b)%R).
  { destruct (C58_norm2_partial A) as (H & _). unfold anorm. rewrite H.
    - now rewrite N1, Rabs_Ropp, Rabs_pos_eq by lra.
    - apply FB. cbn. rewrite Rabs_pos_eq; lra.
    - apply FB. rewrite N1, Rabs_Ropp, Rabs_Rabsolu, Rabs_pos_eq; [|lra]. lra.
    - exists (- (3 * b))%R. split; [now left|]. split; [lra|]. apply FB. rewrite Rabs_Ropp, (Rabs_pos_eq (3 * b)) by lra.
      rewrite Rabs_pos_eq by (left; apply Rinv_0_lt_compat; lra). apply Rmult_le_reg_l with (3 * b)%R; [lra|]. rewrite Rinv_r by lra. lra. }
  destruct (one_run (option R) (anorm A) (odiv A) oeq0 (le_bound lo) (gt_bound hi false) b (/ 4)%R N HN) as (s & R1 & R2); [now rewrite NB|].
  destruct R2 as (s' & R2).
  { rewrite RE, NN, NB. cbn [odiv ninv A le_bound]. destruct (Rle_dec 0 lo); auto. }
  exists A, b, s, [OutUnit], s', (0 + 1 * (1 * b / (/ 4)))%R. split; [reflexivity|]. split; [lra|]. split; [apply one_good|]. split; [exact R1|]. split; [exact R2|].
  rewrite RE, !N1, Rabs_Ropp, !Rabs_pos_eq by lra. split; [reflexivity|]. lra.
Qed.
Print Assumptions C25_tiny_refuted.

(** The hypotheses of [C25_residual_partial] hold for one level, the identity matrix and b = (2), and the run returns. *)
Example C25_residual_hyps :
  let a := fold_left (fun a o => fst (spec_step ORe a (snd o))) (one_hist 1) (abs_new ORe) in
  hist_good ORe (abs_new ORe) (one_hist 1) /\ aprecs a <> [] /\ asz a = Some (1, 1) /\ mul_good ORe rid false 1 /\ rnorm [2%R] <> 0%R /\
  exists s s' z, run ORe (hif_new ORe) (one_hist 1) = Some (s, [OutUnit]) /\
  hifir_bounded ORe rid (option R) (anorm (mkArith None (fun _ _ => true) None)) (odiv (mkArith None (fun _ _ => true) None)) oeq0 (le_bound 0) (gt_bound 5 true) rj s [2%R] 7 [0%R] false 0 = Ret s' (z, 1, Some true).
Proof.
  intros a. split; [apply one_good|]. split; [discriminate|]. split; [reflexivity|]. split; [intros v w L _; exists v; auto|].
  assert (N1 : forall y, (rnorm [y] = Rabs y)%R).
  { intros y. unfold rnorm. cbn [sumR]. rewrite Rplus_0_r. rewrite <- (sqrt_Rsqr_abs y). reflexivity. }
  assert (N2 : rnorm [2%R] = 2%R) by (rewrite N1, Rabs_pos_eq; lra). split; [rewrite N2; lra|].
  set (A := mkArith None (fun _ _ => true) None).
  destruct (one_run (option R) (anorm A) (odiv A) oeq0 (le_bound 0) (gt_bound 5 true) 2 1 7) as (s & R1 & R2); [lia| |].
  - rewrite anorm_eq, N2 by reflexivity. cbn. destruct (Req_EM_T 2 0); [lra|auto].
  - destruct R2 as (s' & R2); [|exists s, s'; eexists; split; [exact R1|exact R2]].
    rewrite !anorm_eq, !N1 by reflexivity. cbn [odiv]. destruct (Req_EM_T (Rabs 2) 0) as [E|_]; [rewrite Rabs_pos_eq in E; lra|].
    cbn [chk bd A le_bound]. destruct (Rle_dec _ 0) as [_|C]; [auto|]. exfalso. apply C.
    replace (2 - (0 + 1 * (1 * 2 / 1)))%R with 0%R by (field). rewrite Rabs_R0. unfold Rdiv. lra.
Qed.
