(** * PropScale: the iterative a priori scaling (C48). *)
From Coq Require Import List Arith ZArith Lia Lra Bool Permutation Reals.
From Verif Require Import Base Scalar Spec VecProofs CSModel CSSpec CSProofs ConvModel ConvSpec ConvProofs ConvProofs3 Mag VecModel PruneModel PreModel PreSpec
  EqModel EqSpec DualSpec PrepModel PrepSpec PrepProofs1 PrepProofs2 PrepProofs4 PrepProofs5.
Import ListNotations.
Close Scope R_scope. Open Scope nat_scope.

(** Square matrix over the reals in row storage, no stored zero, no empty row or (general mode)
    column; in symmetric mode the magnitudes are symmetric.  [um]: uninitialised arrays,
    [mdiff], [mbig]: the convergence test, all arbitrary.  Whatever number of passes is made,
    the matrix becomes diag(rs) B diag(cs) with positive factors, on the same pattern, no entry
    exceeds one in magnitude, and in symmetric mode both factors agree.
    Missing for the full claim: rows without a nonzero entry (refuted below), rounding. *)
Theorem C48_iterative_partial : forall (B : CS ORe) (symm : bool) (mdiff : R -> R) (mbig : R -> bool) (um : nat -> list R) (rs cs : list R),
  wf B -> tight B -> ssize B = psize B ->
  (forall i j v, i < psize B -> stored B i j v -> v <> 0%R) ->
  (forall i, i < psize B -> exists j v, stored B i j v) ->
  (symm = false -> forall j, j < psize B -> exists i v, i < psize B /\ stored B i j v) ->
  (symm = true -> forall i j v, i < psize B -> stored B i j v -> exists w, stored B j i w /\ Rabs w = Rabs v) ->
  (forall k, length (um k) = k) -> psize B <= length rs -> psize B <= length cs ->
  exists B' rs' cs', iterative_scale MRe 1%R Rinv Rmult sqrt mdiff mbig um symm B rs cs = Ok (B', rs', cs') /\
    wf B' /\ is_scaled MRe Rmult B B' rs' cs' /\ length rs' = length rs /\ length cs' = length cs /\
    (forall i, i < psize B -> (0 < nth i rs' 0)%R /\ (0 < nth i cs' 0)%R) /\
    (forall i j v, i < psize B -> stored B' i j v -> (Rabs v <= 1)%R) /\
    (symm = true -> forall i, i < psize B -> nth i cs' 0%R = nth i rs' 0%R).
Proof.
  intros B symm mdiff mbig um rs cs W TT SQ NZ RN CN SY LM L1 L2. pose proof TT as (T1 & T2 & T3).
  assert (RNE : forall i, i < psize B -> st B i < st B (S i)).
  { intros i Hi. destruct (RN i Hi) as (j & v & S0). apply stored_at in S0. destruct S0 as (k & K & _). lia. }
  assert (CNE : symm = false -> forall j, j < psize B -> exists k, k < st B (psize B) /\ ix B k = j).
  { intros E j Hj. destruct (CN E j Hj) as (i & v & Hi & S0). apply stored_at in S0. destruct S0 as (k & K & K2 & _). exists k. split; [|auto].
    pose proof (st_mono ORe B W (S i) (psize B) ltac:(lia) ltac:(lia)). lia. }
  assert (SM : sym_mag B symm).
  { intros E i k Hi Hk. destruct (SY E i (ix B k) (nth k (vals B) 0%R) Hi) as (w & S0 & A); [apply stored_at; exists k; auto|].
    apply stored_at in S0. destruct S0 as (k' & K1 & K2 & <-). exists k'. auto. }
  pose proof (iterative_rel B W TT SQ NZ RNE symm CNE mdiff mbig um rs cs LM L1 L2) as X. apply wp_inv in X.
  destruct X as ([[B' rs'] cs'] & EX & (S1 & S2) & E1 & E2 & E3 & E4 & E5 & E6 & E7 & E8 & E9). exists B', rs', cs'. split; [exact EX|].
  assert (ST : forall i, st B' i = st B i) by (intros; unfold st; now rewrite E5).
  assert (IX : forall k, ix B' k = ix B k) by (intros; unfold ix; now rewrite E6).
  split.
  { destruct W as [W1 W2 W3 W4 W5 W6]. constructor; rewrite ?E3, ?E4, ?E5, ?E6, ?E7; auto; intros; rewrite ?ST, ?IX in *; auto. }
  split.
  { split; [exact E3|]. split; [exact E4|]. intros i Hi. unfold rowl. fold (st B' i) (st B' (S i)) (st B i) (st B (S i)). rewrite !ST. rewrite map_map. apply map_ext_in. intros k Hk. apply in_seq in Hk.
    pose proof (RNE i Hi). fold (ix B' k) (ix B k). rewrite IX. cbn [fst snd]. f_equal. refine (eq_trans (S2 i k Hi ltac:(lia)) _). cbn [M MRe T ORe Mag.m0]. unfold vl. cbn [T ORe t0]. ring. }
  split; [auto|]. split; [auto|]. split; [auto|]. split.
  - intros i j v Hi S0. apply stored_at in S0. destruct S0 as (k & K1 & _ & <-). rewrite !ST in K1. exact (E8 SM i k Hi K1).
  - intros E i Hi. exact (E9 E i Hi).
Qed.
Print Assumptions C48_iterative_partial.

(** Two concrete matrices meet the hypotheses: rows (4, 0), (2, -9) and the symmetric (4, 2), (-2, 9). *)
Definition sc_g : CS ORe := @mkCS ORe 2 2 [0; 1; 3] [0; 0; 1] [4; 2; (-9)]%R.
Definition sc_s : CS ORe := @mkCS ORe 2 2 [0; 2; 4] [0; 1; 0; 1] [4; 2; (-2); 9]%R.
Example C48_iterative_hyps : wf sc_g /\ tight sc_g /\ wf sc_s /\ tight sc_s /\
  (forall B, B = sc_g \/ B = sc_s -> psize B = 2 /\ ssize B = 2 /\
    (forall i j v, i < 2 -> stored B i j v -> v <> 0%R) /\
    (forall i, i < 2 -> exists j v, stored B i j v) /\ (forall j, j < 2 -> exists i v, i < 2 /\ stored B i j v)) /\
  (forall i j v, i < 2 -> stored sc_s i j v -> exists w, stored sc_s j i w /\ Rabs w = Rabs v).
Proof.
  split; [apply wfb_wf; vm_compute; reflexivity|]. split; [apply tightb_tight; vm_compute; reflexivity|].
  split; [apply wfb_wf; vm_compute; reflexivity|]. split; [apply tightb_tight; vm_compute; reflexivity|]. split.
  - intros B [->| ->]; (split; [reflexivity|]); (split; [reflexivity|]); (split; [|split]).
    + intros [|[|i]] j v Hi H; [..|lia]; cbn in H; repeat (destruct H as [H|H]; [injection H as <- <-; lra|]); contradiction.
    + intros [|[|i]] Hi; [..|lia]; exists 0; eexists; left; reflexivity.
    + intros [|[|j]] Hj; [..|lia]; exists 1; eexists; (split; [lia|]); [left|right; left]; reflexivity.
    + intros [|[|i]] j v Hi H; [..|lia]; cbn in H; repeat (destruct H as [H|H]; [injection H as <- <-; lra|]); contradiction.
    + intros [|[|i]] Hi; [..|lia]; exists 0; eexists; left; reflexivity.
    + intros [|[|j]] Hj; [..|lia]; exists 1; eexists; (split; [lia|]); [left|right; left]; reflexivity.
  - intros [|[|i]] j v Hi H; [..|lia]; cbn in H; destruct H as [H|[H|[]]]; injection H as <- <-; eexists.
    + split; [left; reflexivity|reflexivity].
    + split; [left; reflexivity|]. change (Rabs (- (2)) = Rabs 2)%R. apply Rabs_Ropp.
    + split; [right; left; reflexivity|]. change (Rabs 2 = Rabs (- (2)))%R. now rewrite Rabs_Ropp.
    + split; [right; left; reflexivity|reflexivity].
Qed.

(** IEEE arithmetic restricted to 0, 1, infinity and NaN (closed under the operations used here:
    products, reciprocals, square roots, comparisons, distance from one). *)
Inductive fl := F0 | F1 | Finf | Fnan.
Definition fl_mul (a b : fl) : fl :=
  match a, b with
  | Fnan, _ | _, Fnan | F0, Finf | Finf, F0 => Fnan
  | F0, _ | _, F0 => F0
  | Finf, _ | _, Finf => Finf
  | F1, F1 => F1
  end.
Definition fl_inv (a : fl) : fl := match a with F0 => Finf | F1 => F1 | Finf => F0 | Fnan => Fnan end.
Definition fl_lt (a b : fl) : bool := match a, b with F0, (F1 | Finf) | F1, Finf => true | _, _ => false end.
Definition fl_le (a b : fl) : bool := match a, b with Fnan, _ | _, Fnan => false | F0, _ | F1, (F1 | Finf) | Finf, Finf => true | _, _ => false end.
(** [std::abs(1 - x)] and [x > 1e-10]. *)
Definition fl_diff (a : fl) : fl := match a with F0 => F1 | F1 => F0 | x => x end.
Definition fl_big (a : fl) : bool := match a with F1 | Finf => true | _ => false end.
(** Additions and inverses are not used by the scaling. *)
Definition OF : Ops := mkOps fl F0 F1 (fun _ _ => Fnan) fl_mul (fun _ _ => Fnan) (fun _ => Fnan) fl_inv (fun a b => fl_mul a (fl_inv b)) (fun x => x).
Definition MF : Mag OF := @mkMag OF fl F0 (fun x => x) fl_lt fl_le fl_mul.
Definition fl_scale := iterative_scale MF F1 fl_inv fl_mul (fun x => x) fl_diff fl_big (fun k => repeat F0 k).

(** Without the hypothesis on rows and columns the scaling is not usable: the row without
    entries gets an infinite factor (both modes), and a stored zero that is alone in its row
    becomes NaN.  (The extreme-value scaling replaces a zero maximum by one.) *)
Theorem C48_iterative_zero_refuted :
  (forall symm, exists (B : CS OF) B' rs' cs', wf B /\ tight B /\ psize B = 2 /\ ssize B = 2 /\ stored B 0 0 F1 /\
     fl_scale symm B [F0; F0] [F0; F0] = Ok (B', rs', cs') /\ nth 1 rs' F0 = Finf) /\
  (forall symm, exists (B : CS OF) B' rs' cs', wf B /\ tight B /\ psize B = 2 /\ ssize B = 2 /\ stored B 0 0 F1 /\ stored B 1 1 F0 /\
     fl_scale symm B [F0; F0] [F0; F0] = Ok (B', rs', cs') /\ stored B' 1 1 Fnan /\ nth 1 rs' F0 <> F0 /\ fl_le Fnan F1 = false).
Proof.
  split; intros symm.
  - exists (@mkCS OF 2 2 [0; 1; 1] [0] [F1]).
    destruct symm; (eexists; eexists; eexists; split; [apply wfb_wf; vm_compute; reflexivity|]; split; [apply tightb_tight; vm_compute; reflexivity|];
      split; [reflexivity|]; split; [reflexivity|]; split; [left; reflexivity|]; split; [vm_compute; reflexivity|]; reflexivity).
  - exists (@mkCS OF 2 2 [0; 1; 2] [0; 1] [F1; F0]).
    destruct symm; (eexists; eexists; eexists; split; [apply wfb_wf; vm_compute; reflexivity|]; split; [apply tightb_tight; vm_compute; reflexivity|];
      split; [reflexivity|]; split; [reflexivity|]; split; [left; reflexivity|]; split; [left; reflexivity|]; split; [vm_compute; reflexivity|];
      split; [left; reflexivity|]; split; [discriminate|reflexivity]).
Qed.
Print Assumptions C48_iterative_zero_refuted.
