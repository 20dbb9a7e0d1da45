(** * EqDual4: the first two phases give a matching that is tight for the dual values. *)
From Coq Require Import List Arith ZArith Bool Lia Reals Lra.
From Verif Require Import Base EqModel EqSpec DualSpec EqProofs1 EqProofs2 EqProofs3 EqProofs4 EqDual1 EqDual2 EqDual3.
Import ListNotations.
Local Open Scope nat_scope.

Section Init.
  Variable K : ROps.
  Variable ev : RR K -> option R.
  Hypothesis EA : exact_arith K ev.
  Notation fin := (fin K ev).
  Notation rv := (rv K ev).
  Notation kle := (kle K).
  Notation RR := (RR K).
  Notation ndx := (n1 (r0 K)).
  Variable n : nat.
  Variables ip irn : list nat.
  Variable a : list RR.
  Hypothesis PW : pattern1 n ip irn.
  Hypothesis La : length irn <= length a.
  Hypothesis REQ : req K (rinf K) (rinf K) = true.
  Hypothesis HF : half_full n ip.
  Hypothesis FBH : FB K n ip irn a fin.
  Notation incol := (incol ip).
  Notation RC := (RC K ev irn a).
  Notation KTOTn := (ktot K ev EA).
  Notation KLTn := (klt K ev EA).
  Notation dual := (dual K ev n ip irn a).

  Lemma over_col_w : forall S j (f : nat -> S -> res S) s (I : nat -> S -> Prop), 1 <= j <= n -> I (N1 ip j) s ->
    (forall k s, incol j k -> I k s -> wlp (f k s) (I (Datatypes.S k))) -> wlp (over_col ip j f s) (I (N1 ip (Datatypes.S j))).
  Proof.
    intros S j f s I Hj H0 Hs. unfold over_col. lg 0. lg 0. apply (wlp_for_range _ I); auto. apply (pw_mono _ _ _ PW); auto.
  Qed.

  (** Row minima of the costs. *)
  Definition U0 (e : nat) (s : list RR * list nat * list nat) : Prop := let '(u, iperm, l) := s in
    length u = n /\ length iperm = n /\ length l = n /\
    (forall k, 1 <= k < e -> kle (ndx u (N1 irn k)) (ndx a k)) /\
    (forall i, 1 <= i <= n -> N1 iperm i <> 0 -> ndx u i = ndx a (N1 l i)).
  Lemma init_u_d : wlp (init_u K n ip irn a) (U0 (S (length irn))).
  Proof.
    destruct FBH as (_ & _ & _ & _ & _ & _ & B1 & BE). unfold init_u. rewrite <- BE.
    apply (wlp_for_range _ (fun j => U0 (N1 ip j))); [lia| |].
    - unfold U0. rewrite !repeat_length. split; [auto|]. split; [auto|]. split; [auto|]. split; [intros; lia|].
      intros i Hi H. exfalso. apply H. now apply n1_repeat.
    - intros j s Hj HI0. apply (over_col_w _ j _ s U0); [lia|auto|].
      intros k [[u iperm] l] Hk (Lu & Li & Ll & C & D).
      pose proof (incol_row K n ip irn a PW La j k ltac:(lia) Hk). pose proof (incol_k K n ip irn a PW La j k ltac:(lia) Hk).
      lg 0. lg (r0 K). lg (r0 K). destruct (rlt K _ _) eqn:ER.
      { apply wlp_ok. split; [auto|]. split; [auto|]. split; [auto|]. split; [|auto]. intros k' Hk'. destruct (Nat.eq_dec k' k) as [->|]; [|apply C; lia].
        apply (kltt K KTOTn KLTn); auto. }
      apply (kltf K KLTn) in ER. ls. ls. ls. apply wlp_ok. unfold U0. rewrite !upd_length. split; [auto|]. split; [auto|]. split; [auto|]. split.
      + intros k' Hk'. pose proof (pw_rows _ _ _ PW k' ltac:(lia)). rewrite n1_upd by lia. destruct (Nat.eqb_spec (N1 irn k') (N1 irn k)) as [E|].
        * destruct (Nat.eq_dec k' k) as [->|]; [apply (krefl K KTOTn)|]. eapply (kt K ev EA); [apply ER|]. rewrite <- E. apply C. lia.
        * apply C. assert (k' <> k) by congruence. lia.
      + intros i Hi. rewrite !n1_upd by lia. destruct (Nat.eqb_spec i (N1 irn k)); [auto|]. apply D; auto.
  Qed.

  (** Reduced costs are not negative. *)
  Definition nonneg (u : list RR) : Prop := forall k, 1 <= k <= length irn -> (0 <= RC u k)%R.
  Lemma init_nonneg : forall u iperm l, U0 (S (length irn)) (u, iperm, l) -> ufin K irn fin u -> nonneg u.
  Proof.
    intros u iperm l (_ & _ & _ & H & _) UF k Hk. specialize (H k ltac:(lia)). destruct FBH as (_ & _ & _ & _ & FA & _).
    apply (kfin K ev EA) in H; auto. unfold EqDual2.RC, CC, UU. lra.
  Qed.

  (** ** Cheap assignment *)
  Lemma cheap_d : forall iperm0 l, length iperm0 = n -> length l = n ->
    wlp (cheap n ip iperm0 l) (fun '(iperm, jperm, num) => forall j, 1 <= j <= n -> N1 jperm j <> 0 ->
      exists i, 1 <= i <= n /\ N1 iperm0 i <> 0 /\ N1 jperm j = N1 l i).
  Proof.
    intros iperm0 l Li0 Ll. unfold cheap.
    eapply wlp_conseq with (P := fun '(iperm, jperm, num) => (length iperm = n /\ length jperm = n) /\ (forall r, S n <= r <= n -> N1 iperm r = N1 iperm0 r) /\
      forall j, 1 <= j <= n -> N1 jperm j <> 0 -> exists i, 1 <= i <= n /\ N1 iperm0 i <> 0 /\ N1 jperm j = N1 l i).
    2:{ intros [[p1 p2] p3] (_ & _ & H). exact H. }
    apply (wlp_for_range _ (fun i '(iperm, jperm, num) => (length iperm = n /\ length jperm = n) /\ (forall r, i <= r <= n -> N1 iperm r = N1 iperm0 r) /\
      forall j, 1 <= j <= n -> N1 jperm j <> 0 -> exists i, 1 <= i <= n /\ N1 iperm0 i <> 0 /\ N1 jperm j = N1 l i)); [lia| |].
    - rewrite repeat_length. split; [auto|]. split; [auto|]. intros j Hj H. exfalso. apply H. now apply n1_repeat.
    - intros i [[iperm jperm] num] Hi ((L1 & L2) & KP & HJ). lg 0.
      assert (E0 : N1 iperm i = N1 iperm0 i) by (apply KP; lia).
      assert (KP1 : forall r, S i <= r <= n -> N1 iperm r = N1 iperm0 r) by (intros; apply KP; lia).
      destruct (Nat.eqb_spec (N1 iperm i) 0). { apply wlp_ok. auto. }
      assert (KP2 : forall v r, S i <= r <= n -> N1 (upd iperm (i - 1) v) r = N1 iperm0 r) by (intros; rewrite n1_neq by lia; auto).
      ls. lg 0. destruct (negb _). { apply wlp_ok. rewrite upd_length. auto. }
      lg 0. lg 0. destruct (_ && _). { apply wlp_ok. rewrite upd_length. auto. }
      ls. lg 0. ls. apply wlp_ok. rewrite !upd_length. split; [auto|]. split.
      + intros r Hr. rewrite n1_neq; rewrite ?upd_length; try lia. auto.
      + intros j' Hj'. rewrite n1_upd by lia. destruct (Nat.eqb_spec j' (N1 iperm i)); [|apply HJ; auto].
        intros _. exists i. split; [lia|]. split; [congruence|auto].
  Qed.

  (** ** Second phase *)
  Section Two.
  Variable u : list RR.
  Hypothesis Lu : length u = n.
  Hypothesis UF : ufin K irn fin u.

  Definition AD (s : ast K) : Prop := forall j, 1 <= j <= n -> N1 (a_jperm K s) j <> 0 ->
    fin (ndx (a_d K s) j) /\ forall k, incol j k -> (RC u (N1 (a_jperm K s) j) <= RC u k)%R /\ (rv (ndx (a_d K s) j) <= RC u k)%R.

  Lemma red_f : forall k, 1 <= k <= length irn -> fin (rsub K (ndx a k) (ndx u (N1 irn k))) /\ rv (rsub K (ndx a k) (ndx u (N1 irn k))) = RC u k.
  Proof.
    intros k Hk. destruct FBH as (_ & _ & _ & _ & FA & _). destruct (fsub K ev EA _ _ (FA k Hk) (UF k Hk)) as (A & B). split; auto.
  Qed.

  Lemma col_min_d : forall iperm b e, (forall k, b <= k < e -> 1 <= k <= length irn) -> b < e ->
    wlp (col_min K irn a iperm u b e) (fun '(vj, i0, k0) => fin vj /\ rv vj = RC u k0 /\ b <= k0 < e /\ i0 = N1 irn k0 /\
      forall k, b <= k < e -> (rv vj <= RC u k)%R).
  Proof.
    intros iperm b e Hk Hbe. unfold col_min. lg 0. lb. unfold reduced at 1. lg 0. lg (r0 K). lg (r0 K). apply wlp_ok.
    destruct (red_f b (Hk b ltac:(lia))) as (G1 & G2).
    apply (wlp_for_range _ (fun e '(vj, i0, k0) => fin vj /\ rv vj = RC u k0 /\ b <= k0 < e /\ i0 = N1 irn k0 /\
      forall k, b <= k < e -> (rv vj <= RC u k)%R)); [lia| |].
    - split; [auto|]. split; [auto|]. split; [lia|]. split; [auto|]. intros k Hk'. replace k with b by lia. rewrite G2. lra.
    - intros k [[vj i0] k0] Hkk (I1 & I2 & I3 & -> & I4). lg 0. lb. unfold reduced at 1. lg 0. lg (r0 K). lg (r0 K). apply wlp_ok.
      destruct (red_f k (Hk k ltac:(lia))) as (F1 & F2). set (di := rsub K (ndx a k) (ndx u (N1 irn k))) in *.
      assert (NEW : (rv di <= rv vj)%R -> (fun '(vj, i0, k0) => fin vj /\ rv vj = RC u k0 /\ b <= k0 < S k /\ i0 = N1 irn k0 /\
        forall k1, b <= k1 < S k -> (rv vj <= RC u k1)%R) (di, N1 irn k, k)).
      { intros L. split; [auto|]. split; [auto|]. split; [lia|]. split; [auto|]. intros k' Hk'.
        destruct (Nat.eq_dec k' k) as [->|]; [lra|]. pose proof (I4 k' ltac:(lia)). rewrite ?I2, ?F2 in *. lra. }
      assert (OLD : (rv vj <= rv di)%R -> (fun '(vj, i0, k0) => fin vj /\ rv vj = RC u k0 /\ b <= k0 < S k /\ i0 = N1 irn k0 /\
        forall k1, b <= k1 < S k -> (rv vj <= RC u k1)%R) (vj, N1 irn k0, k0)).
      { intros L. split; [auto|]. split; [auto|]. split; [lia|]. split; [auto|]. intros k' Hk'.
        destruct (Nat.eq_dec k' k) as [->|]; [lra|]. specialize (I4 k' ltac:(lia)). lra. }
      destruct (rlt K vj di) eqn:E1.
      { apply wlp_ok. apply OLD. apply (kfin K ev EA); auto. apply (kltt K KTOTn KLTn); auto. }
      apply (kltf K KLTn), (kfin K ev EA) in E1; auto.
      destruct (rlt K di vj || req K di (rinf K)) eqn:E2. { apply wlp_ok. apply NEW. auto. }
      apply orb_false_iff in E2. destruct E2 as (E2 & _). apply (kltf K KLTn), (kfin K ev EA) in E2; auto.
      lg 0. lg 0. destruct (_ || _); apply wlp_ok; [apply OLD|apply NEW]; auto.
  Qed.

  Lemma try_steal_d : forall j k i jj kk1 kke s, AD s -> length (a_jperm K s) = n -> 1 <= j <= n -> N1 (a_jperm K s) j = 0 ->
    1 <= jj <= n -> N1 (a_jperm K s) jj <> 0 ->
    fin (ndx (a_d K s) j) -> (RC u k <= rv (ndx (a_d K s) j))%R -> (forall k', incol j k' -> (rv (ndx (a_d K s) j) <= RC u k')%R) ->
    wlp (try_steal K irn a u j k i jj kk1 kke s) (fun '(going, s') => AD s' /\ (going = true -> s' = s)).
  Proof.
    intros j k i jj kk1 kke s HA Lj Hj Zj Hjj Njj FD HK HD. unfold try_steal. lb.
    apply wlp_conseq with (P := fun '(kk, going, s') => AD s' /\ (going = true -> s' = s)).
    2:{ intros [[kk g] s'] H. apply wlp_ok. exact H. }
    apply (wlp_loop _ (fun _ '(kk, g, s') => g = true /\ s' = s)).
    - auto.
    - intros [[kk g] s'] (_ & ->). auto.
    - intros t [[kk g] s'] Ht (-> & ->). lg 0. lg 0. destruct (0 <? _). { apply wlp_ok. cbn. auto. }
      lb. unfold reduced. lg 0. lg (r0 K). lg (r0 K). apply wlp_ok. lg (r0 K). destruct (rle K _ _) eqn:ER.
      2:{ apply wlp_ok. cbn. auto. }
      ls. ls. ls. ls. ls. ls. apply wlp_ok. cbn [fst snd]. split; [|discriminate].
      destruct (red_f kk) as (F1 & F2); [auto|]. destruct (HA jj Hjj Njj) as (D1 & D2).
      change (kle (rsub K (ndx a kk) (ndx u (N1 irn kk))) (ndx (a_d K s) jj)) in ER. apply (kfin K ev EA) in ER; auto. rewrite F2 in ER.
      intros j' Hj'. cbn [a_jperm a_d]. rewrite (n1_upd _ 0 (upd (a_jperm K s) _ _)) by (rewrite ?upd_length; lia). destruct (Nat.eqb_spec j' j) as [->|].
      + intros _. split; [auto|]. intros k' Hk'. specialize (HD k' Hk'). split; [lra|auto].
      + rewrite n1_upd by lia. destruct (Nat.eqb_spec j' jj) as [->|]; [|apply HA; auto].
        intros _. split; [auto|]. intros k' Hk'. specialize (D2 k' Hk'). split; lra.
  Qed.

  Lemma scan_col_d : forall j s, AI K n ip irn s -> AD s -> 1 <= j <= n -> wlp (scan_col K ip irn a u j s) AD.
  Proof.
    intros j s HA HD Hj. unfold scan_col. pose proof HA as (MM & Hc & Lpr & Ld & Hpr). pose proof MM as (Li & Lj & M1 & M2).
    lg 0. destruct (Nat.eqb_spec (N1 (a_jperm K s) j) 0) as [E|E]; cbn [negb]. 2:{ apply wlp_ok. auto. }
    lg 0. lg 0. destruct (Nat.leb_spec (N1 ip (S j)) (N1 ip j)). { apply wlp_ok; auto. }
    lb. eapply wlp_conseq. { apply (col_min_d (a_iperm K s) (N1 ip j) (N1 ip (S j))); auto. intros k Hk. eapply (incol_k K n ip irn a PW La); eauto. }
    intros [[vj i0] k0] (V1 & V2 & V3 & -> & V4). ls. cbn [a_iperm a_jperm a_pr a_d a_num]. lg 0.
    destruct (Nat.eqb_spec (N1 (a_iperm K s) (N1 irn k0)) 0) as [E0|E0].
    - ls. ls. ls. apply wlp_ok. intros j' Hj'. cbn [a_iperm a_jperm a_pr a_d a_num]. rewrite !n1_upd by lia. destruct (Nat.eqb_spec j' j) as [->|].
      + intros _. split; [auto|]. intros k' Hk'. specialize (V4 k' Hk'). split; lra.
      + apply HD; auto.
    - set (s0 := mkAst K (a_iperm K s) (a_jperm K s) (a_pr K s) (upd (a_d K s) (j - 1) vj) (a_num K s)).
      assert (A0 : AD s0).
      { intros j' Hj' Hne. cbn [s0 a_jperm a_d] in *. rewrite n1_neq by (try lia; congruence). apply HD; auto. }
      assert (D0 : ndx (a_d K s0) j = vj) by (apply n1_eq; lia).
      lb. apply wlp_conseq with (P := fun '(_, s') => AD s'). 2:{ intros [k' s'] H'. apply wlp_ok. exact H'. }
      apply (wlp_loop _ (fun t '(k, s') => k = k0 + t /\ AD s' /\ a_iperm K s' = a_iperm K s /\ a_jperm K s' = a_jperm K s /\ a_d K s' = a_d K s0)).
      + split; [lia|auto].
      + intros [k' s'] (_ & H' & _). exact H'.
      + intros t [k' s'] Ht (-> & A1 & I1 & J1 & D1).
        set (k := k0 + t) in *. assert (Hk : incol j k) by (unfold EqProofs2.incol, k; lia).
        pose proof (incol_row K n ip irn a PW La j k Hj Hk). pose proof (incol_k K n ip irn a PW La j k Hj Hk) as Rk.
        lg 0. lb. unfold reduced. lg 0. lg (r0 K). lg (r0 K). apply wlp_ok. destruct (red_f k Rk) as (F1 & F2). set (r := rsub K (ndx a k) (ndx u (N1 irn k))) in *.
        destruct (rlt K vj r) eqn:ER. { apply wlp_ok. cbn [fst snd]. split; [unfold k; lia|auto]. }
        apply (kltf K KLTn), (kfin K ev EA) in ER; auto. rewrite F2 in ER.
        lg 0. lg 0. lg 0. destruct (Nat.leb_spec (N1 ip (S (N1 (a_iperm K s') (N1 irn k)))) (N1 (a_pr K s') (N1 (a_iperm K s') (N1 irn k)))).
        { apply wlp_ok. cbn [fst snd]. split; [unfold k; lia|auto]. }
        rewrite I1 in *. set (jj := N1 (a_iperm K s) (N1 irn k)) in *.
        assert (NZ : jj <> 0) by lia.
        destruct (M1 (N1 irn k) ltac:(lia) NZ) as (Y1 & Y2 & Y3). fold jj in Y1, Y2.
        lb. eapply wlp_conseq.
        { apply (try_steal_d j k (N1 irn k) jj _ (N1 ip (S jj)) s'); auto; rewrite ?J1, ?D1, ?D0; auto. }
        intros [going s2] (T1 & T2). destruct going.
        * rewrite (T2 eq_refl) in *. ls. apply wlp_ok. cbn [fst snd]. split; [unfold k; lia|]. split; [|auto]. exact A1.
        * apply wlp_ok. cbn [fst snd]. exact T1.
  Qed.
  End Two.
End Init.
