(** * EqDual3: the duals after an augmenting path; the main loop keeps them. *)
From Coq Require Import List Arith ZArith Bool Lia Reals Lra.
From Verif Require Import Base EqModel EqSpec DualSpec EqProofs1 EqProofs2 EqProofs3 EqProofs4 EqDual1 EqDual2.
Import ListNotations.
Local Open Scope nat_scope.

Section Aug.
  Variable K : ROps.
  Variable ev : RR K -> option R.
  Hypothesis EA : exact_arith K ev.
  Notation fin := (fin K ev).
  Notation rv := (rv K ev).
  Notation kle := (kle K).
  Notation cle := (cle K ev).
  Notation RR := (RR K).
  Notation ndx := (n1 (r0 K)).
  Variable n : nat.
  Variables ip irn : list nat.
  Variable a : list RR.
  Hypothesis PW : pattern1 n ip irn.
  Hypothesis La : length irn <= length a.
  Hypothesis REQ : req K (rinf K) (rinf K) = true.
  Notation incol := (incol ip).
  Notation RCu := (RC K ev irn a).

  (** Matched columns: the matched entry has the least reduced cost. *)
  Definition dual (u : list RR) (jperm : list nat) : Prop :=
    forall c, 1 <= c <= n -> N1 jperm c <> 0 -> forall k, incol c k -> (RCu u (N1 jperm c) <= RCu u k)%R.

  Section One.
  Variables iperm jperm : list nat.
  Variable u : list RR.
  Hypothesis MM : MI n ip irn n iperm jperm.
  Hypothesis Lu : length u = n.
  Variable XTRA : Prop.
  Hypothesis FLH : FL K irn a u fin XTRA.
  Variable jord : nat.
  Hypothesis Hjord : 1 <= jord <= n.
  Hypothesis Fjord : N1 jperm jord = 0.
  Hypothesis DUAL : dual u jperm.
  Notation settled := (settled n iperm jord).
  Notation SI := (SI K n ip irn iperm jord).
  Notation FI0 := (FI K n ip irn a iperm u fin XTRA jord (fun _ _ => False)).
  Notation DI0 := (DI K ev n ip irn a iperm jperm u jord (fun _ _ => False)).
  Notation VV := (VV K ev irn a jperm u jord).
  Notation iperm_ok := (iperm_ok n ip irn iperm jperm MM).

  (** The columns of the path get entries of the tree. *)
  Lemma augment_w : forall num s, SI s -> req K (t_csp K s) (rinf K) = false ->
    wlp (augment K irn num s iperm jperm) (fun '(iperm', jperm') => forall c, 1 <= c <= n ->
      N1 jperm' c = N1 jperm c \/ (settled (t_up K s) (t_l K s) c /\ ((c = t_jsp K s /\ N1 jperm' c = t_isp K s) \/
        exists r, 1 <= r <= n /\ N1 iperm r <> 0 /\ t_up K s <= N1 (t_l K s) r /\ n1 None (t_pr K s) (N1 iperm r) = Some c /\
          N1 jperm' c = N1 (t_out K s) (N1 iperm r)))).
  Proof.
    intros num s HS Hc. pose proof HS as (HH & Q1 & Q2 & Q3 & Ld & T & SP). pose proof HH as (Lq & Ll & A & B).
    destruct T as (Lo & Lp & PJ & T). destruct (SP Hc) as (J1 & J2 & J3 & J4). pose proof MM as (L1 & L2 & M1 & M2). unfold augment.
    set (up := t_up K s) in *. set (l := t_l K s) in *.
    set (Q := fun jperm' => length jperm' = n /\ forall c, 1 <= c <= n ->
      N1 jperm' c = N1 jperm c \/ (settled up l c /\ ((c = t_jsp K s /\ N1 jperm' c = t_isp K s) \/
        exists r, 1 <= r <= n /\ N1 iperm r <> 0 /\ up <= N1 l r /\ n1 None (t_pr K s) (N1 iperm r) = Some c /\
          N1 jperm' c = N1 (t_out K s) (N1 iperm r)))).
    lg 0. ls. ls. lb. eapply wlp_conseq with (P := fun x => Q (snd (fst x))).
    2:{ intros [[p1 p2] p3] (_ & HX). apply wlp_ok. exact HX. }
    apply (wlp_loop _ (fun _ x => Q (snd (fst x)) /\ 1 <= snd x <= n /\ settled up l (snd x))).
    - cbn [fst snd]. split; [|auto]. split; [now rewrite upd_length|]. intros c Hcc. rewrite n1_upd by lia.
      destruct (Nat.eqb_spec c (t_jsp K s)) as [->|]; [right; auto|auto].
    - intros [[p1 p2] j] (HX & _). exact HX.
    - intros t [[p1 p2] j] Ht. cbn [fst snd]. intros ((LQ & HQ) & Hj & HSj). lg (@None nat).
      destruct (n1 None (t_pr K s) j) as [pj|] eqn:EP.
      2:{ apply wlp_ok. cbn [fst snd]. split; auto. }
      destruct HSj as [->|(r & Hr & Er & Hu)]; [congruence|].
      assert (ZR : N1 iperm r <> 0) by lia.
      destruct (T r Hr) as (N0 & pj' & T2 & T3 & T4 & T5 & T6). { fold l. assert (1 <= up) by (unfold up; lia). lia. }
      rewrite Er in T5. rewrite EP in T5. injection T5 as <-.
      lg 0. lg 0. ls. ls. apply wlp_ok. cbn [fst snd].
      assert (SJ : settled up l pj).
      { destruct T6 as [->|(r2 & Hr2 & Er2 & Hu2 & _)]; [left; auto|]. right. exists r2. auto. }
      split; [|auto]. split; [now rewrite upd_length|]. intros c Hcc. rewrite n1_upd by lia.
      destruct (Nat.eqb_spec c pj) as [->|]; [|auto]. right. split; [auto|]. right. exists r. rewrite Er in *. auto 10.
  Qed.

  (** The dual values of the settled rows are raised. *)
  Lemma u_update_l : forall s, SI s -> wlp (for_range (t_up K s) (S n) (fun kk u =>
            i <- g1 (t_q K s) kk ;; ui <- g1 u i ;; di <- g1 (t_d K s) i ;;
            s1 u i (rsub K (radd K ui di) (t_csp K s))) u) (fun u' => forall i, 1 <= i <= n ->
     ndx u' i = if t_up K s <=? N1 (t_l K s) i then rsub K (radd K (ndx u i) (ndx (t_d K s) i)) (t_csp K s) else ndx u i).
  Proof.
    intros s HS. pose proof HS as (HH & Q1 & Q2 & Q3 & Ld & T & SP). pose proof HH as (Lq & Ll & A & B).
    eapply wlp_conseq with (P := fun u' => length u' = n /\ forall i, 1 <= i <= n ->
      ndx u' i = if (t_up K s <=? N1 (t_l K s) i) && (N1 (t_l K s) i <? S n) then rsub K (radd K (ndx u i) (ndx (t_d K s) i)) (t_csp K s) else ndx u i).
    - apply (wlp_for_range _ (fun kc u' => length u' = n /\ forall i, 1 <= i <= n ->
      ndx u' i = if (t_up K s <=? N1 (t_l K s) i) && (N1 (t_l K s) i <? kc) then rsub K (radd K (ndx u i) (ndx (t_d K s) i)) (t_csp K s) else ndx u i)); [lia| |].
      + split; [auto|]. intros i Hi. destruct (Nat.leb_spec (t_up K s) (N1 (t_l K s) i)); [|auto]. destruct (Nat.ltb_spec (N1 (t_l K s) i) (t_up K s)); [lia|auto].
      + intros kc u' Hkc (Lu' & Hu'). lg 0. lg (r0 K). lg (r0 K). apply wlp_s1. intros _. split; [now rewrite upd_length|].
        destruct (A kc) as (X1 & _ & _ & X4); [unfold reg; lia|lia|].
        intros i Hi. rewrite n1_upd by lia. destruct (Nat.eqb_spec i (N1 (t_q K s) kc)) as [->|Hne].
        * rewrite X4, Hu' by lia. rewrite X4. destruct (Nat.leb_spec (t_up K s) kc); [|lia]. destruct (Nat.ltb_spec kc (S kc)); [|lia].
          destruct (Nat.ltb_spec kc kc); [lia|]. reflexivity.
        * rewrite Hu' by lia. destruct (Nat.leb_spec (t_up K s) (N1 (t_l K s) i)); [cbn [andb]|auto].
          assert (N1 (t_l K s) i <> kc).
          { intros E. destruct (B i Hi) as [F|(_ & _ & F)]; try lia. rewrite E in F. lia. }
          destruct (Nat.ltb_spec (N1 (t_l K s) i) kc), (Nat.ltb_spec (N1 (t_l K s) i) (S kc)); auto; lia.
    - intros u' (_ & Hu') i Hi. rewrite Hu' by auto. destruct (Nat.leb_spec (t_up K s) (N1 (t_l K s) i)); cbn [andb]; [|auto].
      destruct (Nat.ltb_spec (N1 (t_l K s) i) (S n)); auto. destruct (B i Hi) as [F|(F & _)]; try lia. unfold reg in F. lia.
  Qed.

  (** The new matching is tight for the new dual values. *)
  Lemma augment_d : forall s jperm' u', SI s -> FI0 s -> DI0 s -> TERM K n s -> req K (t_csp K s) (rinf K) = false ->
    (forall c, 1 <= c <= n ->
      N1 jperm' c = N1 jperm c \/ (settled (t_up K s) (t_l K s) c /\ ((c = t_jsp K s /\ N1 jperm' c = t_isp K s) \/
        exists r, 1 <= r <= n /\ N1 iperm r <> 0 /\ t_up K s <= N1 (t_l K s) r /\ n1 None (t_pr K s) (N1 iperm r) = Some c /\
          N1 jperm' c = N1 (t_out K s) (N1 iperm r)))) ->
    (forall i, 1 <= i <= n ->
     ndx u' i = if t_up K s <=? N1 (t_l K s) i then rsub K (radd K (ndx u i) (ndx (t_d K s) i)) (t_csp K s) else ndx u i) ->
    dual u' jperm'.
  Proof.
    intros s jperm' u' HS HF (D1 & D2 & D3 & D4 & D5 & D6 & D7) HT Hc HJ HU.
    pose proof HS as (HH & Q1 & Q2 & Q3 & Ld & T & SP). pose proof HH as (Lq & Ll & A & B).
    destruct T as (Lo & Lp & PJ & T). destruct (SP Hc) as (J1 & J2 & J3 & J4). destruct (HF FLH) as (F1 & F2 & _).
    assert (FC : fin (t_csp K s)). { destruct F2 as [F2|F2]; [rewrite F2, REQ in Hc; discriminate|auto]. } clear F2.
    set (up := t_up K s) in *. set (l := t_l K s) in *. set (csp := t_csp K s) in *. set (d := t_d K s) in *.
    assert (U1 : 1 <= up) by (unfold up; lia).
    assert (IK : forall c k, 1 <= c <= n -> incol c k -> 1 <= k <= length irn /\ 1 <= N1 irn k <= n).
    { intros c k H1 H2. split; [eapply (incol_k K n ip irn a PW La); eauto|eapply (incol_row K n ip irn a PW La); eauto]. }
    (* reduced costs for the new duals *)
    assert (NS : forall k, 1 <= k <= length irn -> 1 <= N1 irn k <= n -> up <= N1 l (N1 irn k) -> fin (ndx d (N1 irn k)) /\
       (rv (ndx d (N1 irn k)) <= rv csp)%R /\ RCu u' k = (RCu u k - rv (ndx d (N1 irn k)) + rv csp)%R).
    { intros k H1 H2 H3. assert (FDi : fin (ndx d (N1 irn k))) by (apply F1; auto; unfold l in *; lia).
      split; [auto|]. split; [apply kfin; auto; apply D4; auto|]. unfold RC, UU, CC. rewrite HU by auto. fold up l d csp.
      destruct (Nat.leb_spec up (N1 l (N1 irn k))); [|lia].
      assert (FU : fin (ndx u (N1 irn k))) by (apply FLH; auto).
      destruct (fadd K ev EA _ _ FU FDi) as (G1 & G2). destruct (fsub K ev EA _ _ G1 FC) as (G3 & G4). rewrite G4, G2. lra. }
    assert (NU : forall k, 1 <= N1 irn k <= n -> N1 l (N1 irn k) < up -> RCu u' k = RCu u k).
    { intros k H1 H2. unfold RC, UU, CC. rewrite HU by auto. fold up l. destruct (Nat.leb_spec up (N1 l (N1 irn k))); [lia|auto]. }
    assert (NG : forall k, 1 <= k <= length irn -> 1 <= N1 irn k <= n -> (RCu u k <= RCu u' k)%R).
    { intros k H1 H2. destruct (le_lt_dec up (N1 l (N1 irn k))) as [L|L].
      - destruct (NS k H1 H2 L) as (_ & X1 & X2). rewrite X2. lra.
      - rewrite NU by auto. lra. }
    pose proof MM as (L1 & L2 & M1 & M2).
    assert (SDEC : forall c, 1 <= c <= n -> N1 jperm c <> 0 -> up <= N1 l (N1 irn (N1 jperm c)) \/ N1 l (N1 irn (N1 jperm c)) < up) by (intros; lia).
    (* the settled columns *)
    assert (SETLE : forall c k, 1 <= c <= n -> settled up l c -> incol c k -> (rv csp - VV d c <= RCu u' k)%R).
    { intros c k Hcc HSt Hk. destruct (IK c k Hcc Hk) as (K1 & K2). destruct (D7 c k Hcc HSt Hk) as [[]|[(_ & X)|(X1 & X2)]].
      - pose proof (NG k K1 K2). fold csp d in X. lra.
      - fold l in X1. fold d in X2. destruct (le_lt_dec up (N1 l (N1 irn k))) as [L|L].
        + destruct (NS k K1 K2 L) as (_ & X3 & X4). rewrite X4. lra.
        + rewrite NU by auto. assert (X5 : kle csp (ndx d (N1 irn k))) by (apply HT; auto).
          apply (kfin K ev EA) in X5; auto; [lra|]. apply F1; auto. }
    intros c Hcc HN k Hk. destruct (IK c k Hcc Hk) as (K1 & K2).
    assert (OLD : N1 jperm' c = N1 jperm c -> (RCu u' (N1 jperm' c) <= RCu u' k)%R).
    { intros E. rewrite E in *. destruct (M2 c Hcc HN) as (X1 & X2 & X3). destruct (IK c _ Hcc X1) as (Y1 & Y2).
      destruct (SDEC c Hcc HN) as [L|L].
      - destruct (NS _ Y1 Y2 L) as (_ & _ & E2). rewrite E2.
        assert (HSt : settled up l c). { right. exists (N1 irn (N1 jperm c)). auto. }
        pose proof (SETLE c k Hcc HSt Hk) as G. unfold EqDual2.VV in G. destruct (Nat.eqb_spec c jord) as [->|]; [congruence|]. lra.
      - rewrite (NU (N1 jperm c)) by auto. pose proof (DUAL c Hcc HN k Hk). pose proof (NG k K1 K2). lra. }
    destruct (HJ c Hcc) as [E|(HSt & [(-> & E)|(r & Hr & Hne & Hu & HP & E)])]; [auto| |]; rewrite E.
    - rewrite NU. 2:{ apply (IK (t_jsp K s)); auto. } 2:{ destruct (Nat.eq_dec (N1 l (N1 irn (t_isp K s))) 0) as [Z|Z]; [lia|].
        exfalso. destruct (T (N1 irn (t_isp K s))) as (Z1 & _); [apply (IK (t_jsp K s)); auto|fold l; auto|]. auto. }
      pose proof (SETLE _ k Hcc HSt Hk). specialize (D6 FC). fold csp d in D6. lra.
    - destruct (T r Hr) as (_ & pj & T1 & T2 & T3 & T4 & _); [fold l; fold up in Hu; lia|]. rewrite HP in T4. injection T4 as <-.
      destruct (IK c _ Hcc T2) as (Y1 & Y2). destruct (NS _ Y1 Y2) as (_ & _ & E2); [rewrite T3; auto|]. rewrite E2.
      pose proof (SETLE _ k Hcc HSt Hk). rewrite T3. specialize (D5 r c Hr). fold l d in D5. rewrite D5; auto; [lra|fold up in Hu; lia].
  Qed.
  End One.

  Lemma w2 : forall A (m : res A) (P : A -> Prop), wp m P -> wlp m P.
  Proof. intros A m P H r E. eapply wp_ok_inv; eauto. Qed.
  Lemma wlp_and : forall A (m : res A) (P Q : A -> Prop), wlp m P -> wlp m Q -> wlp m (fun x => P x /\ Q x).
  Proof. intros A m P Q H1 H2 r E. auto. Qed.

  (** ** The main loop *)
  Hypothesis HF : half_full n ip.
  Hypothesis FBH : FB K n ip irn a fin.
  Lemma main_step_d : forall jord s, 1 <= jord <= n -> MS K n ip irn s -> MF K n ip irn a fin s -> dual (m_u K s) (m_jperm K s) ->
    wlp (main_step K n ip irn a jord s) (fun s' => dual (m_u K s') (m_jperm K s')).
  Proof.
    intros jord s Hj HM HMF HD. pose proof HM as (MM & Hnum & Lu & Lq & Ll & Zl & Lo & Lp & Ld). pose proof MM as (Li & Lj & _).
    pose proof (FB_FL K n ip irn a fin _ FBH (proj1 (HMF FBH))) as FLH.
    unfold main_step. lg 0. destruct (Nat.eqb_spec (N1 (m_jperm K s) jord) 0) as [E|E]; cbn [negb]. 2:{ apply wlp_ok. auto. }
    ls. cbv zeta. set (pr := upd (m_pr K s) (jord - 1) None).
    assert (Lp' : length pr = n) by (unfold pr; now rewrite upd_length).
    assert (PJ : n1 None pr jord = None) by (unfold pr; apply n1_eq; lia).
    set (t0 := mkSst K (m_q K s) (m_l K s) (m_out K s) pr (m_d K s) (rinf K) (rinf K) (m_isp K s) (m_jsp K s) 0 (S n) (S n)).
    pose proof (HF jord Hj) as HFj.
    lb. eapply wlp_conseq.
    { apply wlp_and.
      - apply w2. apply (scan_first_l K n ip irn a PW La REQ (m_iperm K s) (m_jperm K s) (m_u K s) MM Lu fin (FX K n ip irn fin) jord Hj E t0); auto.
        intros _ i Hi. apply HMF; auto.
      - apply (scan_first_d K ev EA n ip irn a PW La (m_iperm K s) (m_jperm K s) (m_u K s) Lu jord Hj E t0); auto. }
    intros t1 (T1 & T1d). lb. eapply wlp_conseq.
    { apply w2. apply (build_heap_d K ev EA n ip irn a PW La (m_iperm K s) (m_jperm K s) (m_u K s) MM Lu _ FLH jord Hj E t0 t1 T1 T1d); auto. }
    intros t2 (S2 & U2 & FI2 & DI2). lb. eapply wlp_conseq.
    { apply w2. apply (search_d K ev EA n ip irn a PW La REQ (m_iperm K s) (m_jperm K s) (m_u K s) MM Lu _ FLH jord Hj E HD (m_num K s) t2 S2 FI2 DI2 U2 Hnum). }
    intros t (ST & NUM & FIT & DT & DIT & TT).
    lb. apply wlp_conseq with (P := fun '(iperm', jperm', num', u') => dual u' jperm').
    { destruct (req K (t_csp K t) (rinf K)) eqn:ER; cbn [negb].
      { apply wlp_ok. auto. }
      lb. eapply wlp_conseq.
      { eapply augment_w; eauto. }
      intros [iperm' jperm'] HJ. lb. eapply wlp_conseq.
      { eapply u_update_l; eauto. }
      intros u' HU. apply wlp_ok. eapply augment_d; [exact MM|exact Lu|exact FLH|exact Hj|exact E|exact HD|exact ST|exact FIT|exact DIT|exact TT|exact ER|exact HJ|exact HU]. }
    intros [[[iperm' jperm'] num'] u'] M.
    lb. apply wlp_conseq with (P := fun _ => True); [intros r Er; exact I|]. intros [d1 l1] _.
    lb. apply wlp_conseq with (P := fun _ => True); [intros r Er; exact I|]. intros [d2 l2] _.
    apply wlp_ok. exact M.
  Qed.
End Aug.
