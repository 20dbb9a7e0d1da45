(** * EqDual2: the shortest-path search computes distances for the reduced costs. *)
From Coq Require Import List Arith ZArith Bool Lia Reals Lra.
From Verif Require Import Base EqModel EqSpec DualSpec EqProofs1 EqProofs2 EqProofs3 EqDual1.
Import ListNotations.
Local Open Scope nat_scope.

Section Arith.
  Variable K : ROps.
  Variable ev : RR K -> option R.
  Hypothesis EA : exact_arith K ev.
  Definition fin (x : RR K) : Prop := exists a, ev x = Some a.
  Definition rv (x : RR K) : R := match ev x with Some a => a | None => 0%R end.

  Lemma kt : forall x y z, kle K x y -> kle K y z -> kle K x z.
  Proof.
    intros x y z. unfold kle. rewrite !(ea_le _ _ EA). destruct (ev x), (ev y), (ev z); cbn; try tauto. lra.
  Qed.
  Lemma ktot : forall x y, kle K x y \/ kle K y x.
  Proof. intros x y. unfold kle. rewrite !(ea_le _ _ EA). destruct (ev x), (ev y); cbn; try tauto. lra. Qed.
  Lemma klt : forall x y, rlt K x y = negb (rle K y x).
  Proof.
    intros x y. pose proof (ea_lt _ _ EA x y) as L. pose proof (ea_le _ _ EA y x) as E. destruct (ev x), (ev y); cbn in *;
    destruct (rlt K x y), (rle K y x); cbn; auto; exfalso; try (assert (X : false = true) by tauto; discriminate).
    - assert (r < r0)%R by tauto. assert (r0 <= r)%R by tauto. lra.
    - destruct (Rle_lt_dec r0 r) as [Q|Q]; [apply E in Q|apply L in Q]; discriminate.
  Qed.
  Lemma kfin : forall x y, fin x -> fin y -> (kle K x y <-> (rv x <= rv y)%R).
  Proof. intros x y (p & Ep) (q & Eq). unfold kle, rv. rewrite (ea_le _ _ EA), Ep, Eq. cbn. tauto. Qed.
  Lemma kinf : forall x, kle K x (rinf K).
  Proof. intros x. unfold kle. rewrite (ea_le _ _ EA), (ea_inf _ _ EA). destruct (ev x); cbn; auto. Qed.
  Lemma inf_le : forall x, fin x -> rle K (rinf K) x = false.
  Proof.
    intros x (p & E). destruct (rle K (rinf K) x) eqn:F; auto. apply (ea_le _ _ EA) in F. rewrite E, (ea_inf _ _ EA) in F. destruct F.
  Qed.
  Lemma fsub : forall x y, fin x -> fin y -> fin (rsub K x y) /\ rv (rsub K x y) = (rv x - rv y)%R.
  Proof. intros x y (p & Ep) (q & Eq). pose proof (ea_sub _ _ EA _ _ _ _ Ep Eq) as E. unfold fin, rv. rewrite E, Ep, Eq. eauto. Qed.
  Lemma fadd : forall x y, fin x -> fin y -> fin (radd K x y) /\ rv (radd K x y) = (rv x + rv y)%R.
  Proof. intros x y (p & Ep) (q & Eq). pose proof (ea_add _ _ EA _ _ _ _ Ep Eq) as E. unfold fin, rv. rewrite E, Ep, Eq. eauto. Qed.
  Lemma fin_dec : forall x, fin x \/ ev x = None.
  Proof. intros x. unfold fin. destruct (ev x) eqn:E; eauto. Qed.
  Lemma knone : forall x y, ev x = None -> fin y -> kle K x y -> False.
  Proof. intros x y E (p & F) H. apply (ea_le _ _ EA) in H. rewrite E, F in H. destruct H. Qed.
  Lemma kfinl : forall x y, fin y -> kle K x y -> fin x.
  Proof. intros x y F H. destruct (fin_dec x) as [|E]; auto. exfalso. eapply knone; eauto. Qed.
  (** A number below a real. *)
  Definition cle (x : RR K) (v : R) : Prop := fin x /\ (rv x <= v)%R.
  Lemma cle_k : forall x y v, kle K x y -> cle y v -> cle x v.
  Proof. intros x y v H (F & L). pose proof (kfinl _ _ F H). split; [auto|]. apply kfin in H; auto. lra. Qed.
  Lemma k_cle : forall x y, fin y -> (kle K x y <-> cle x (rv y)).
  Proof.
    intros x y F. split.
    - intros H. pose proof (kfinl _ _ F H). split; auto. apply kfin; auto.
    - intros (F2 & L). apply kfin; auto.
  Qed.
  Lemma nkle : forall x y, rle K x y = false -> kle K y x.
  Proof. intros x y E. destruct (ktot x y) as [H|H]; auto. unfold kle in H. congruence. Qed.
  Lemma nkle_lt : forall x y, fin x -> fin y -> rle K x y = false -> (rv y < rv x)%R.
  Proof.
    intros x y Fx Fy E. destruct (Rle_lt_dec (rv x) (rv y)) as [L|L]; auto. exfalso. apply kfin in L; auto. unfold kle in L. congruence.
  Qed.
End Arith.

Section Dual.
  Variable K : ROps.
  Variable ev : RR K -> option R.
  Hypothesis EA : exact_arith K ev.
  Notation fin := (fin K ev).
  Notation rv := (rv K ev).
  Notation kle := (kle K).
  Notation cle := (cle K ev).
  Notation RR := (RR K).
  Notation ndx := (n1 (r0 K)).
  Variable n : nat.
  Variables ip irn : list nat.
  Variable a : list RR.
  Hypothesis PW : pattern1 n ip irn.
  Hypothesis La : length irn <= length a.
  Hypothesis REQ : req K (rinf K) (rinf K) = true.
  Notation incol := (incol ip).
  Variables iperm jperm : list nat.
  Variable u : list RR.
  Hypothesis MM : MI n ip irn n iperm jperm.
  Hypothesis Lu : length u = n.
  Variable XTRA : Prop.
  Hypothesis FLH : FL K irn a u fin XTRA.
  Variable jord : nat.
  Hypothesis Hjord : 1 <= jord <= n.
  Hypothesis Fjord : N1 jperm jord = 0.
  Notation settled := (settled n iperm jord).
  Notation SI := (SI K n ip irn iperm jord).
  Notation FI := (FI K n ip irn a iperm u fin XTRA jord).
  Notation iperm_ok := (iperm_ok n ip irn iperm jperm MM).
  Notation KTn := (kt K ev EA).
  Notation KTOTn := (ktot K ev EA).
  Notation KLTn := (klt K ev EA).

  Definition CC (k : nat) : R := rv (ndx a k).
  Definition UU (i : nat) : R := rv (ndx u i).
  Definition RC (k : nat) : R := (CC k - UU (N1 irn k))%R.
  (** Matched columns: the matched entry has the least reduced cost. *)
  Hypothesis DUAL : forall c, 1 <= c <= n -> N1 jperm c <> 0 -> forall k, incol c k -> (RC (N1 jperm c) <= RC k)%R.

  Lemma fa : forall k, 1 <= k <= length irn -> fin (ndx a k).
  Proof. apply FLH. Qed.
  Lemma fu : forall k, 1 <= k <= length irn -> fin (ndx u (N1 irn k)).
  Proof. apply FLH. Qed.

  Definition VV (d : list RR) (c : nat) : R :=
    if c =? jord then 0%R else (rv (ndx d (N1 irn (N1 jperm c))) - RC (N1 jperm c))%R.

  (** [settled] columns other than the root are matched (the tree invariant). *)
  Lemma settled_row : forall up l c, settled up l c -> c <> jord -> c <> 0 -> exists r, 1 <= r <= n /\ N1 iperm r = c /\ up <= N1 l r /\
     1 <= c <= n /\ N1 jperm c <> 0 /\ N1 irn (N1 jperm c) = r.
  Proof.
    intros up l c [->|(r & Hr & Er & Hu)] H1 H2; [contradiction|]. destruct (iperm_ok r Hr) as (A & B & C); [congruence|]. rewrite Er in *. exists r. auto 10.
  Qed.
  Lemma vv_ext : forall up l d d' c x, settled up l c -> 1 <= c <= n -> N1 l x < up -> (forall i, 1 <= i <= n -> i <> x -> ndx d' i = ndx d i) -> VV d' c = VV d c.
  Proof.
    intros up l d d' c x HS Hc Hx HE. unfold VV. destruct (Nat.eqb_spec c jord) as [|N]; auto.
    destruct (settled_row _ _ _ HS N ltac:(lia)) as (r & Hr & Er & Hu & _ & _ & E). rewrite E, HE; auto. intros ->. lia.
  Qed.

  Definition DI (ex : nat -> nat -> Prop) (s : sst K) : Prop :=
    HO K (t_d K s) (t_qlen K s) (t_q K s) /\
    (forall i, 1 <= i <= n -> t_low K s <= N1 (t_l K s) i -> kle (ndx (t_d K s) i) (t_dmin K s)) /\
    (forall i, 1 <= i <= n -> N1 (t_l K s) i <> 0 -> N1 (t_l K s) i < t_up K s -> kle (t_dmin K s) (ndx (t_d K s) i)) /\
    (forall i, 1 <= i <= n -> t_up K s <= N1 (t_l K s) i -> kle (ndx (t_d K s) i) (t_csp K s)) /\
    (forall i pj, 1 <= i <= n -> N1 (t_l K s) i <> 0 -> n1 None (t_pr K s) (N1 iperm i) = Some pj ->
       rv (ndx (t_d K s) i) = (VV (t_d K s) pj + RC (N1 (t_out K s) (N1 iperm i)))%R) /\
    (fin (t_csp K s) -> rv (t_csp K s) = (VV (t_d K s) (t_jsp K s) + RC (t_isp K s))%R) /\
    (forall c k, 1 <= c <= n -> settled (t_up K s) (t_l K s) c -> incol c k -> ex c k \/ cle (t_csp K s) (VV (t_d K s) c + RC k) \/
       (N1 (t_l K s) (N1 irn k) <> 0 /\ (rv (ndx (t_d K s) (N1 irn k)) <= VV (t_d K s) c + RC k)%R)).

  (** A row goes to the lower end of the upper part or into the heap. *)
  Lemma move_d : forall qlen low q l d x v dmin, HI n qlen low 0 0 0 q l -> qlen < low -> low <= S n -> length d = n -> 1 <= x <= n ->
    N1 l x = 0 \/ 1 <= N1 l x <= qlen -> ndx d x = v ->
    (N1 l x = 0 -> HO K d qlen q) -> (N1 l x <> 0 -> HOX K d qlen (N1 l x) q /\ UPc K d qlen (N1 l x) q v) ->
    wlp (if rle K v dmin then
                  '(q, l, qlen) <- (if negb (N1 l x =? 0) then heap_del K (N1 l x) qlen n q d l else Ok (q, l, qlen)) ;;
                  let low := low - 1 in
                  q <- s1 q low x ;; l <- s1 l x low ;; Ok (q, l, qlen, low)
                else
                  '(l, qlen) <- (if N1 l x =? 0 then l <- s1 l x (S qlen) ;; Ok (l, S qlen) else Ok (l, qlen)) ;;
                  '(q, l) <- heap_up K x n q d l ;;
                  Ok (q, l, qlen, low)) (fun '(q', l', qlen', low') =>
      HO K d qlen' q' /\ qlen' < low' /\ low' <= low /\
      (forall i, 1 <= i <= n -> i <> x -> (N1 l i = 0 -> N1 l' i = 0) /\ (low <= N1 l i -> N1 l' i = N1 l i) /\ (1 <= N1 l i <= qlen -> 1 <= N1 l' i <= qlen')) /\
      (if rle K v dmin then low' = low - 1 /\ N1 l' x = low - 1 else low' = low /\ 1 <= N1 l' x <= qlen')).
  Proof.
    intros qlen low q l d x v dmin HH Q1 Q2 Ld Hx HX Ev HO0 HO1. pose proof HH as (Lq & Ll & A & B). destruct (rle K v dmin).
    - lb. apply wlp_conseq with (P := fun '(q1, l1, qlen1) => HO K d qlen1 q1 /\ S qlen1 < low /\ qlen1 <= qlen /\ length q1 = n /\ length l1 = n /\
        forall i, 1 <= i <= n -> i <> x -> (N1 l i = 0 -> N1 l1 i = 0) /\ (low <= N1 l i -> N1 l1 i = N1 l i) /\ (1 <= N1 l i <= qlen -> 1 <= N1 l1 i <= qlen1)).
      { destruct (Nat.eqb_spec (N1 l x) 0) as [E|E]; cbn [negb].
        - apply wlp_ok. pose proof (space n _ _ x _ _ HH Hx E Q1 ltac:(lia)). auto 10.
        - destruct (HO1 E) as (HX1 & _).
          eapply wlp_use; [apply (heap_del_l K n qlen low d Ld q l x HH); auto; lia|].
          eapply wlp_conseq; [apply (heap_del_o K KTn KTOTn KLTn d n qlen q l (N1 l x)); auto; lia|].
          intros [[q1 l1] qlen1] G (-> & (P0 & P1 & _) & _ & P3). split; [auto|]. split; [lia|]. split; [lia|]. split; [auto|]. split; [auto|].
          intros i Hi Hne. destruct (P3 i Hi Hne) as (X1 & X2 & X3). split; [auto|]. split; [intros; apply X2; lia|auto]. }
      intros [[q1 l1] qlen1] (G1 & G2 & G3 & G4 & G5 & G6). cbv zeta. ls. ls. apply wlp_ok. split.
      { intros pos Hp. pose proof (div2_spec pos). rewrite !n1_neq by lia. apply G1. auto. }
      split; [lia|]. split; [lia|]. split.
      + intros i Hi Hne. rewrite n1_neq by lia. auto.
      + rewrite n1_eq by lia. auto.
    - lb. apply wlp_conseq with (P := fun '(l1, qlen1) => HI n qlen1 low 0 x (N1 l1 x) q l1 /\ HOX K d qlen1 (N1 l1 x) q /\ UPc K d qlen1 (N1 l1 x) q v /\
        qlen1 < low /\ qlen <= qlen1 /\ 1 <= N1 l1 x <= qlen1 /\
        forall i, 1 <= i <= n -> i <> x -> N1 l1 i = N1 l i).
      { destruct (Nat.eqb_spec (N1 l x) 0) as [E|E].
        - ls. apply wlp_ok. rewrite n1_eq by lia. specialize (HO0 E). pose proof (space n _ _ x _ _ HH Hx E Q1 ltac:(lia)).
          split; [apply hi_insert; auto; lia|]. split; [|split; [|split; [lia|split; [lia|split; [lia|]]]]].
          + split; intros pos Hp X Y; pose proof (div2_spec pos); [apply HO0; lia|lia].
          + intros pos Hp X. pose proof (div2_spec pos). lia.
          + intros i Hi Hne. rewrite n1_neq by lia. auto.
        - apply wlp_ok. destruct (HO1 E). split; [apply hi_open; auto; lia|]. split; [auto|]. split; [auto|]. split; [lia|]. split; [lia|]. split; [lia|auto]. }
      intros [l1 qlen1] (G1 & G2 & G3 & G4 & G5 & G6 & G7). lb.
      eapply wlp_use; [apply (heap_up_l K n qlen1 low x d Ld q l1 G1); lia|].
      eapply wlp_conseq; [apply (heap_up_o K KTn KTOTn d n qlen1 x q l1); auto; try lia; rewrite Ev; auto|].
      intros [q' l'] G (W1 & (_ & W2) & W3). apply wlp_ok. split; [auto|]. split; [lia|]. split; [lia|]. split; [|split; [auto|lia]].
      intros i Hi Hne. destruct (W2 i Hi ltac:(lia) Hne) as (X1 & X2 & X3). rewrite G7 in X1, X2, X3 by auto.
      split; [auto|]. split; [intros; apply X2; lia|]. intros; apply X3; lia.
  Qed.

  Notation next_inv := (next_inv K n ip irn a iperm u fin XTRA jord).
  Definition DN (j q0 : nat) (vj : RR) (k : nat) (t : sst K) : Prop :=
    DI (fun c k' => c = j /\ k <= k') t /\ rv vj = VV (t_d K t) j /\ kle (t_dmin K t) (ndx (t_d K t) q0).

  Lemma fin_used : forall ex s i, FI ex s -> 1 <= i <= n -> N1 (t_l K s) i <> 0 -> fin (ndx (t_d K s) i).
  Proof. intros ex s i H Hi Hl. destruct (H FLH) as (D & _). apply D; auto. Qed.
  Lemma used_fin : forall ex s i, FI ex s -> 1 <= i <= n -> fin (ndx (t_d K s) i) -> N1 (t_l K s) i <> 0.
  Proof.
    intros ex s i H Hi F E. destruct (H FLH) as (D & _). destruct (D i Hi) as (_ & D2). rewrite (D2 E) in F. destruct F as (x & F).
    rewrite (ea_inf _ _ EA) in F. discriminate.
  Qed.

  Lemma next_dual : forall s j vj q0 k t, 1 <= q0 <= n -> N1 iperm q0 = j -> j <> 0 -> 1 <= j <= n -> 1 <= t_up K s -> fin vj ->
    incol j k -> next_inv s j q0 k t -> DN j q0 vj k t ->
    wlp (next_body K n irn a iperm u j vj k t) (fun t' => next_inv s j q0 (S k) t' -> DN j q0 vj (S k) t').
  Proof.
    intros s j vj q0 k t Hq Ej Hj0 Hj Hup1 Fv Hk (S0 & S1 & S2 & S3) (DD & EV & DQ). pose proof DD as (H1 & H2 & H3 & H4 & H5 & H6 & H7).
    pose proof S0 as (HH & Q1 & Q2 & Q3 & Ld & T & SP). pose proof HH as (Lq & Ll & A & B). pose proof T as (Lo & Lp & PJ & T0).
    pose proof (incol_row K n ip irn a PW La j k Hj Hk) as Rk. pose proof (incol_k K n ip irn a PW La j k Hj Hk) as Kk.
    destruct (iperm_ok q0 Hq) as (_ & J2 & J3); [lia|]. rewrite Ej in J2, J3.
    assert (NJ : j <> jord) by (rewrite <- Ej; eapply iperm_jord; eauto).
    assert (UQ : N1 (t_l K t) q0 <> 0) by lia.
    pose proof (fin_used _ _ _ S3 Hq UQ) as FQ. pose proof (kfinl K ev EA _ _ FQ DQ) as FM.
    set (vk := (VV (t_d K t) j + RC k)%R).
    assert (QV : (rv (ndx (t_d K t) q0) <= vk)%R).
    { unfold vk, VV. destruct (Nat.eqb_spec j jord); [contradiction|]. rewrite J3. pose proof (DUAL j Hj J2 k Hk). lra. }
    assert (MV : (rv (t_dmin K t) <= vk)%R). { apply (kfin K ev EA) in DQ; auto. lra. }
    assert (STJ : settled (t_up K t) (t_l K t) j). { right. exists q0. rewrite S1. auto. }
    assert (LOWV : t_low K t <= N1 (t_l K t) (N1 irn k) -> N1 (t_l K t) (N1 irn k) <> 0 /\ (rv (ndx (t_d K t) (N1 irn k)) <= vk)%R).
    { intros Hl. assert (U : N1 (t_l K t) (N1 irn k) <> 0) by lia. split; [auto|]. specialize (H2 _ Rk Hl). apply (kfin K ev EA) in H2; auto; [lra|].
      apply (fin_used _ _ _ S3 Rk U). }
    assert (KEEP : (cle (t_csp K t) vk \/ (N1 (t_l K t) (N1 irn k) <> 0 /\ (rv (ndx (t_d K t) (N1 irn k)) <= vk)%R)) ->
      DN j q0 vj (S k) t).
    { intros HC. split; [|auto]. repeat (split; [assumption|]). intros c k' Hc HS Hk'. destruct (H7 c k' Hc HS Hk') as [(-> & X)|X]; [|auto].
      destruct (Nat.eq_dec k' k) as [->|]; [right; exact HC|]. left. split; [auto|lia]. }
    unfold next_body. lg 0. lg 0. set (x := N1 irn k) in *. destruct (Nat.leb_spec (t_up K t) (N1 (t_l K t) x)) as [Hx|Hx].
    { apply wlp_ok. intros _. apply KEEP. right. apply LOWV. lia. }
    lg (r0 K). lg (r0 K). cbv zeta. set (dnew := rsub K _ _).
    destruct (fadd K ev EA vj (ndx a k) Fv (fa k Kk)) as (F1 & E1). destruct (fsub K ev EA _ (ndx u x) F1 (fu k Kk)) as (Fd & Ed). fold dnew in Fd, Ed.
    assert (Edn : rv dnew = vk). { rewrite Ed, E1, EV. unfold vk, RC, CC, UU. fold x. lra. }
    clear F1 E1. destruct (rle K _ dnew) eqn:ERL.
    { apply wlp_ok. intros _. apply KEEP. left. rewrite <- Edn. apply (k_cle K ev EA); auto. }
    apply (nkle K ev EA) in ERL.
    lg 0. destruct (Nat.eqb_spec (N1 iperm x) 0) as [E|E].
    { apply wlp_ok. intros _. split; [|auto]. unfold DI. cbn [t_d t_qlen t_q t_low t_l t_dmin t_up t_csp t_out t_pr t_jsp t_isp].
      split; [auto|]. split; [auto|]. split; [auto|]. split; [|split; [auto|split]].
      - intros i Hi Hl. apply (kfin K ev EA); auto. { apply (fin_used _ _ _ S3 Hi). lia. }
        specialize (H2 i Hi ltac:(lia)). apply (kfin K ev EA) in H2; auto; [lra|]. apply (fin_used _ _ _ S3 Hi). lia.
      - intros _. exact Edn.
      - intros c k' Hc HS Hk'. destruct (H7 c k' Hc HS Hk') as [(-> & X)|[X|X]]; [|right; left; eapply (cle_k K ev EA); eauto|auto].
        destruct (Nat.eq_dec k' k) as [->|]; [right; left|left; split; [auto|lia]]. split; [auto|]. rewrite Edn. unfold vk. lra. }
    lg (r0 K). destruct (rle K _ dnew) eqn:ERL2.
    { apply wlp_ok. intros _. apply KEEP. right. pose proof (kfinl K ev EA _ _ Fd ERL2) as Fx. split; [apply (used_fin _ _ _ S3 Rk Fx)|].
      apply (kfin K ev EA) in ERL2; auto. lra. }
    destruct (Nat.leb_spec (t_low K t) (N1 (t_l K t) x)) as [Hlx|Hlx].
    { apply wlp_ok. intros _. apply KEEP. right. apply LOWV. lia. }
    assert (HX : N1 (t_l K t) x = 0 \/ 1 <= N1 (t_l K t) x <= t_qlen K t).
    { destruct (B x Rk) as [F|(F1 & F2 & F3)]; [lia|lia|auto|]. right. unfold reg in F1. lia. }
    ls. set (d' := upd (t_d K t) (x - 1) dnew).
    assert (DX : ndx d' x = dnew) by (unfold d'; apply n1_eq; lia).
    assert (DO : forall i, 1 <= i <= n -> i <> x -> ndx d' i = ndx (t_d K t) i) by (intros; unfold d'; apply n1_neq; lia).
    assert (QR : forall pos, 1 <= pos <= t_qlen K t -> 1 <= N1 (t_q K t) pos <= n /\ N1 (t_l K t) (N1 (t_q K t) pos) = pos).
    { intros pos Hp. destruct (A pos) as (X1 & _ & _ & X4); [unfold reg; lia|lia|auto]. }
    lb. eapply wlp_conseq.
    { apply (move_d (t_qlen K t) (t_low K t) (t_q K t) (t_l K t) d' x dnew (t_dmin K t) HH); auto; try lia.
      - unfold d'. now rewrite upd_length.
      - intros E0 pos Hp. pose proof (div2_spec pos). rewrite !DO; [apply H1; auto|..]; try (apply QR; lia).
        + intros F. destruct (QR pos ltac:(lia)) as (_ & X). rewrite F in X. lia.
        + intros F. destruct (QR (Nat.div2 pos) ltac:(lia)) as (_ & X). rewrite F in X. lia.
      - intros E0. assert (P0 : 1 <= N1 (t_l K t) x <= t_qlen K t) by lia.
        assert (QX : N1 (t_q K t) (N1 (t_l K t) x) = x). { destruct (B x Rk) as [F|(_ & _ & F)]; lia. }
        assert (NX : forall pos, 1 <= pos <= t_qlen K t -> pos <> N1 (t_l K t) x -> N1 (t_q K t) pos <> x).
        { intros pos Hp Hn F. destruct (QR pos Hp) as (_ & X). rewrite F in X. lia. }
        destruct (HO_HOX K KTn (t_d K t) (t_qlen K t) (N1 (t_l K t) x) (t_q K t) H1 ltac:(lia)) as (O1 & O2).
        split; [split|].
        + intros pos Hp X Y. pose proof (div2_spec pos). rewrite !DO; [apply O1; auto|..]; try (apply QR; lia); apply NX; lia.
        + intros pos Hp X Y. pose proof (div2_spec pos). pose proof (div2_spec (N1 (t_l K t) x)). rewrite !DO; [apply O2; auto|..]; try (apply QR; lia); apply NX; lia.
        + intros pos Hp X. pose proof (div2_spec pos). rewrite DO; [|apply QR; lia|apply NX; lia]. apply KTn with (ndx (t_d K t) x).
          * apply (nkle K ev EA); auto.
          * specialize (H1 pos Hp). rewrite X, QX in H1. exact H1. }
    intros [[[q' l'] qlen'] low'] (G1 & G2 & G3 & G4 & G5). lb. unfold set_tree. lg 0. ls. ls. apply wlp_ok. apply wlp_ok.
    intros (S0' & _). pose proof S0' as (HH' & _ & Q2' & _ & _ & T' & _). cbn [t_d t_qlen t_q t_low t_l t_dmin t_up t_csp t_out t_pr t_jsp t_isp] in HH', Q2', T'.
    pose proof HH' as (_ & _ & _ & B').
    assert (LX' : N1 l' x <> 0 /\ N1 l' x < t_up K t).
    { destruct (rle K dnew (t_dmin K t)); destruct G5; lia. }
    assert (ZB : forall i, 1 <= i <= n -> i <> x -> low' <= N1 l' i -> t_low K t <= N1 (t_l K t) i /\ N1 l' i = N1 (t_l K t) i).
    { intros i Hi Hne Hl. destruct (G4 i Hi Hne) as (Y1 & Y2 & Y3). destruct (B i Hi) as [F|(F1 & F2 & F3)]; try lia.
      unfold reg in F1. destruct F1 as (F1 & [F4|F4]); [specialize (Y3 ltac:(lia)); lia|]. rewrite Y2 by auto. auto. }
    assert (ZU : forall i, 1 <= i <= n -> i <> x -> (N1 l' i <> 0 <-> N1 (t_l K t) i <> 0)).
    { intros i Hi Hne. destruct (G4 i Hi Hne) as (Y1 & Y2 & Y3). destruct (B i Hi) as [F|(F1 & F2 & F3)]; try lia.
      unfold reg in F1. destruct F1 as (F1 & [F4|F4]); [specialize (Y3 ltac:(lia)); lia|]. rewrite Y2 by auto. tauto. }
    assert (ZS : forall i, 1 <= i <= n -> (t_up K t <= N1 l' i <-> t_up K t <= N1 (t_l K t) i)).
    { intros i Hi. destruct (Nat.eq_dec i x) as [->|Hne]; [lia|]. destruct (G4 i Hi Hne) as (Y1 & Y2 & Y3). split; intros Hl.
      - destruct (ZB i Hi Hne ltac:(lia)). lia.
      - rewrite Y2 by lia. auto. }
    assert (SS : forall c, settled (t_up K t) l' c <-> settled (t_up K t) (t_l K t) c).
    { intros c. split; (intros [->|(r & Hr & Er & Hu)]; [now left|right; exists r; split; [auto|split; [auto|apply ZS; auto]]]). }
    assert (VX : forall c, settled (t_up K t) (t_l K t) c -> 1 <= c <= n -> VV d' c = VV (t_d K t) c).
    { intros c HS Hc. eapply vv_ext; eauto. }
    destruct (iperm_ok x Rk E) as (X1 & _).
    split; [|split].
    2:{ cbn [t_d]. rewrite VX; auto. }
    2:{ cbn [t_d t_dmin]. rewrite DO; auto. intros ->. lia. }
    unfold DI. cbn [t_d t_qlen t_q t_low t_l t_dmin t_up t_csp t_out t_pr t_jsp t_isp].
    split; [auto|]. split; [|split; [|split; [|split; [|split]]]].
    - intros i Hi Hl. destruct (Nat.eq_dec i x) as [->|Hne].
      + rewrite DX. destruct (rle K dnew (t_dmin K t)) eqn:ER; [exact ER|]. destruct G5. lia.
      + rewrite DO by auto. apply H2; auto. apply ZB; auto.
    - intros i Hi Hu Hl. destruct (Nat.eq_dec i x) as [->|Hne].
      + rewrite DX. apply (kfin K ev EA); auto. lra.
      + rewrite DO by auto. apply H3; auto; [apply ZU; auto|]. destruct (Nat.le_gt_cases (t_up K t) (N1 (t_l K t) i)) as [F|]; [|auto].
        apply ZS in F; auto. lia.
    - intros i Hi Hl. assert (i <> x) by (intros ->; lia). rewrite DO by auto. apply H4; auto. apply ZS; auto.
    - intros i pj Hi Hu HP. destruct (Nat.eq_dec i x) as [->|Hne].
      + rewrite n1_eq in HP by lia. injection HP as <-. rewrite DX, n1_eq by lia. rewrite VX by auto. exact Edn.
      + destruct (Nat.eq_dec (N1 (t_l K t) i) 0) as [F|F]; [apply ZU in Hu; auto; contradiction|].
        destruct (T0 i Hi F) as (NI & pj' & P1 & P2 & P3 & P4 & P5). destruct (iperm_ok i Hi NI) as (Y1 & _).
        assert (N1 iperm i <> N1 iperm x). { intros Ei. apply Hne. eapply iperm_inj; eauto. }
        rewrite n1_neq in HP by (auto; lia). rewrite n1_neq by (auto; lia). rewrite DO by auto. rewrite HP in P4. injection P4 as <-. rewrite VX; auto.
        destruct P5 as [->|(r & R1 & R2 & R3 & _)]; [now left|]. right. exists r. auto.
    - intros FC. rewrite VX; auto; [apply SP|apply SP]; (destruct FLH as (_ & _ & _ & FE & _); apply FE; auto).
    - intros c k' Hc HS Hk'. apply SS in HS. rewrite VX by auto.
      destruct (H7 c k' Hc HS Hk') as [(-> & X)|[X|(X & X')]]; [|auto|].
      + destruct (Nat.eq_dec k' k) as [->|]; [right; right|left; split; [auto|lia]]. fold x. split; [apply LX'|]. rewrite DX, Edn. unfold vk. lra.
      + right. right. pose proof (incol_row K n ip irn a PW La c k' Hc Hk') as Rk'. destruct (Nat.eq_dec (N1 irn k') x) as [Ex|Hne].
        * rewrite Ex in *. split; [apply LX'|]. rewrite DX. apply (fin_used _ _ _ S3 Rk) in X. apply (nkle_lt K ev EA) in ERL2; auto. lra.
        * split; [apply ZU; auto|]. rewrite DO by auto. auto.
  Qed.

  (** The rows left over are no closer than the shortest path found. *)
  Definition TERM (s : sst K) : Prop := forall i, 1 <= i <= n -> N1 (t_l K s) i <> 0 -> N1 (t_l K s) i < t_up K s -> kle (t_csp K s) (ndx (t_d K s) i).

  Lemma root_min : forall d qlen q, HO K d qlen q -> forall pos, 1 <= pos <= qlen -> kle (ndx d (N1 q 1)) (ndx d (N1 q pos)).
  Proof.
    intros d qlen q H pos. induction pos as [pos IH] using lt_wf_ind. intros Hp. destruct (Nat.eq_dec pos 1) as [->|]; [apply (krefl K KTOTn)|].
    pose proof (div2_spec pos). apply KTn with (ndx d (N1 q (Nat.div2 pos))); [apply IH; lia|apply H; lia].
  Qed.

  Lemma low_eq : forall q l low x q' l', (q <- s1 q (low - 1) x ;; l <- s1 l x (low - 1) ;; Ok (q, l)) = Ok (q', l') ->
    q' = upd q (low - 1 - 1) x /\ l' = upd l (x - 1) (low - 1).
  Proof.
    intros q l low x q' l' W. assert (C : wlp (q <- s1 q (low - 1) x ;; l <- s1 l x (low - 1) ;; Ok (q, l))
      (fun r => fst r = upd q (low - 1 - 1) x /\ snd r = upd l (x - 1) (low - 1))).
    { ls. ls. apply wlp_ok. auto. }
    exact (C (q', l') W).
  Qed.
  Lemma refill_d : forall s ex, SI s -> DI ex s -> wlp (refill K n s) (fun r => DI ex (snd r) /\ (fst r = false -> TERM (snd r))).
  Proof.
    intros s ex HS DD. pose proof HS as (HH & Q1 & Q2 & Q3 & Ld & T & SP). pose proof HH as (Lq & Ll & A & B). pose proof DD as (H1 & H2 & H3 & H4 & H5 & H6 & H7).
    assert (HEAP : t_low K s = t_up K s -> forall i, 1 <= i <= n -> N1 (t_l K s) i <> 0 -> N1 (t_l K s) i < t_up K s ->
      1 <= N1 (t_l K s) i <= t_qlen K s /\ N1 (t_q K s) (N1 (t_l K s) i) = i).
    { intros E i Hi Hl Hu. destruct (B i Hi) as [F|(F1 & F2 & F3)]; try lia. unfold reg in F1. split; [lia|auto]. }
    unfold refill. destruct (Nat.eqb_spec (t_low K s) (t_up K s)) as [E|E]; cbn [negb].
    2:{ apply wlp_ok. cbn [fst snd]. split; [auto|discriminate]. }
    destruct (Nat.eqb_spec (t_qlen K s) 0) as [E0|E0].
    { apply wlp_ok. cbn [fst snd]. split; [auto|]. intros _ i Hi Hl Hu. destruct (HEAP E i Hi Hl Hu). lia. }
    destruct (A 1) as (X1 & _ & _ & X4); [unfold reg; lia|lia|].
    lg 0. lg (r0 K). pose proof (root_min _ _ _ H1) as RM. destruct (rle K _ _) eqn:ERL.
    { apply wlp_ok. cbn [fst snd]. split; [auto|]. intros _ i Hi Hl Hu. destruct (HEAP E i Hi Hl Hu) as (P1 & P2).
      eapply KTn; [exact ERL|]. specialize (RM _ P1). rewrite P2 in RM. exact RM. }
    clear ERL. set (di := ndx (t_d K s) (N1 (t_q K s) 1)) in *. set (d := t_d K s) in *.
    set (Z := fun qlen low l => (forall r, 1 <= r <= n -> low <= N1 l r -> N1 l r < t_up K s -> kle (ndx d r) di /\ kle di (ndx d r)) /\
      (forall r, 1 <= r <= n -> 1 <= N1 l r <= qlen -> kle di (ndx d r))).
    lb. apply wlp_conseq with (P := fun '(q, l, qlen, low, _) => HI n qlen low 0 0 0 q l /\ qlen < low /\ low < t_up K s /\
      LS n (t_up K s) 0 (t_l K s) l /\ HO K d qlen q /\ Z qlen low l).
    { apply (wlp_forever _ (fun '(q, l, qlen, low, i) => HI n qlen low 0 0 0 q l /\ 1 <= qlen /\ qlen < low /\ low <= t_up K s /\
        i = N1 q 1 /\ LS n (t_up K s) 0 (t_l K s) l /\ HO K d qlen q /\ Z qlen low l /\ kle (ndx d i) di)).
      - split; [auto|]. split; [lia|]. split; [auto|]. split; [lia|]. split; [auto|]. split; [intros i Hi _; auto|]. split; [auto|]. split; [|apply (krefl K KTOTn)].
        split; [intros; lia|]. intros r Hr Hl. destruct (B r Hr) as [F|(F1 & F2 & F3)]; try lia. rewrite <- F3. apply RM. auto.
      - intros [[[[q l] qlen] low] i] (G1 & G2 & G3 & G4 & -> & G6 & G7 & (Z1 & Z2) & G8). pose proof G1 as (Lq' & Ll' & A' & B').
        destruct (A' 1) as (X & _ & _ & X'); [unfold reg; lia|lia|].
        lb. eapply wlp_use; [apply (heap_pop_l K n qlen low d Ld q l G1); lia|].
        eapply wlp_conseq; [apply (heap_pop_o K KTn KTOTn KLTn d n qlen q l); auto; lia|].
        intros [[q1 l1] qlen1] O1 (-> & P1 & P2). cbv zeta.
        pose proof (ins_low K n irn a La jperm u Lu jord Hjord Fjord (qlen - 1) low (t_up K s) q1 l1 (N1 q 1) P1 ltac:(lia) G4 Q3 X) as W.
        pose proof P1 as (Lq1 & Ll1 & _).
        apply wp_inv in W. destruct W as ([q' l'] & W & W1 & W2 & W3 & W3' & W4).
        assert (Eql : q' = upd q1 (low - 1 - 1) (N1 q 1) /\ l' = upd l1 (N1 q 1 - 1) (low - 1)).
        { exact (low_eq q1 l1 low (N1 q 1) q' l' W). }
        destruct (s1 q1 (low - 1) (N1 q 1)) as [q2| |]; cbn [bind] in W |- *; try discriminate.
        destruct (s1 l1 (N1 q 1) (low - 1)) as [l2| |]; cbn [bind] in W |- *; try discriminate. inversion W; subst q2 l2.
        destruct Eql as (Eq1 & Eq2).
        assert (HLS : LS n (t_up K s) 0 (t_l K s) l').
        { eapply LS_trans; [exact G6|]. apply (LS_0 K n irn a La jperm u Lu jord Hjord Fjord _ (N1 q 1)); auto; try lia.
          eapply LS_trans; [apply (keep_ls K n irn a La jperm u Lu jord Hjord Fjord qlen low (t_up K s) (N1 q 1) q l q1 l1); auto|auto]. }
        assert (O2 : HO K d (qlen - 1) q').
        { intros pos Hp. pose proof (div2_spec pos). rewrite !W4 by lia. apply O1. auto. }
        assert (ZZ : Z (qlen - 1) (low - 1) l').
        { destruct P2 as (_ & P2). split; intros r Hr Hl.
          - intros Hu. destruct (Nat.eq_dec r (N1 q 1)) as [->|Hne]. { split; [auto|]. apply Z2; [lia|]. rewrite X'. lia. }
            rewrite Eq2, n1_neq in Hl, Hu by (auto; lia). destruct (P2 r Hr Hne) as (Y1 & Y2 & Y3).
            destruct (B' r Hr) as [F|(F1 & F2 & F3)]; try lia. unfold reg in F1.
            destruct (Nat.le_gt_cases (N1 l r) qlen) as [F|F]; [specialize (Y3 ltac:(lia)); lia|]. rewrite Y2 in Hl, Hu by lia. apply Z1; auto. lia.
          - destruct (Nat.eq_dec r (N1 q 1)) as [->|Hne]. { apply Z2; [lia|]. rewrite X'. lia. }
            rewrite Eq2, n1_neq in Hl by (auto; lia). destruct (P2 r Hr Hne) as (Y1 & Y2 & Y3). apply Z2; auto.
            destruct (Nat.le_gt_cases (N1 l r) qlen) as [F|F]; [|rewrite Y2 in Hl by lia; lia].
            destruct (Nat.eq_dec (N1 l r) 0); [rewrite Y1 in Hl; lia|lia]. }
        destruct (Nat.eqb_spec (qlen - 1) 0).
        + apply wlp_ok. cbn [fst snd]. split; [auto|]. split; [lia|]. split; [lia|auto].
        + lg 0. lg (r0 K). apply wlp_ok. cbn [fst snd]. destruct (rlt K di _) eqn:ERL; cbn [negb].
          * split; [auto|]. split; [lia|]. split; [lia|auto].
          * split; [auto|]. split; [lia|]. split; [lia|]. split; [lia|]. split; [auto|]. split; [auto|]. split; [auto|]. split; [auto|].
            apply (kltf K KLTn). exact ERL. }
    intros [[[[q l] qlen] low] i] (G1 & G2 & G3 & G4 & G5 & (Z1 & Z2)). apply wlp_ok. cbn [fst snd]. split; [|discriminate].
    pose proof G1 as (_ & _ & _ & B').
    unfold DI. cbn [t_d t_qlen t_q t_low t_l t_dmin t_up t_csp t_out t_pr t_jsp t_isp]. fold d.
    assert (LU : forall r, 1 <= r <= n -> (t_up K s <= N1 l r -> t_up K s <= N1 (t_l K s) r) /\ (N1 l r <> 0 -> N1 (t_l K s) r <> 0)).
    { intros r Hr. destruct (G4 r Hr ltac:(lia)) as (L1 & L2 & L3 & L4). split.
      - intros Hl. destruct (Nat.le_gt_cases (t_up K s) (N1 (t_l K s) r)) as [|HX]; [auto|]. specialize (L3 HX). lia.
      - intros Hl F. apply Hl, L1, F. }
    assert (STT : forall c, settled (t_up K s) l c -> settled (t_up K s) (t_l K s) c).
    { intros c [->|(r & Hr & Er & Hu)]; [now left|]. right. exists r. split; [auto|]. split; [auto|]. apply LU; auto. }
    split; [auto|]. split; [|split; [|split; [|split; [|split; [auto|]]]]].
    - intros r Hr Hl. destruct (Nat.le_gt_cases (t_up K s) (N1 l r)) as [F|F]; [|apply Z1; auto].
      apply KTn with (t_dmin K s); [apply H2; auto; apply LU in F; auto; lia|]. apply H3; auto; rewrite X4; lia.
    - intros r Hr Hl Hu. destruct (B' r Hr) as [F|(F1 & F2 & F3)]; try lia. unfold reg in F1.
      destruct (Nat.le_gt_cases low (N1 l r)); [apply Z1; auto|apply Z2; auto; lia].
    - intros r Hr Hl. apply H4; auto. apply LU; auto.
    - intros r pj Hr Hl. apply H5; auto. apply LU; auto.
    - intros c k Hc HST Hk. destruct (H7 c k Hc (STT c HST) Hk) as [F|[F|(F & F')]]; auto. right. right. split; [|auto].
      apply (G4 (N1 irn k)); auto; try lia. eapply (incol_row K n ip irn a PW La); eauto. pose proof (incol_row K n ip irn a PW La c k Hc Hk). lia.
  Qed.

  Notation FI0 := (FI (fun _ _ => False)).
  Notation DI0 := (DI (fun _ _ => False)).
  Notation done := (done K irn a u fin XTRA).
  Definition popped (t : sst K) : sst K := mkSst K (t_q K t) (t_l K t) (t_out K t) (t_pr K t) (t_d K t) (t_dmin K t) (t_csp K t) (t_isp K t) (t_jsp K t) (t_qlen K t) (t_low K t) (t_up K t - 1).

  (** Taking a row out of the upper part. *)
  Lemma step_up : forall t, SI t -> FI0 t -> t_low K t < t_up K t -> let q0 := N1 (t_q K t) (t_up K t - 1) in
    1 <= q0 <= n /\ N1 (t_l K t) q0 = t_up K t - 1 /\ N1 iperm q0 <> 0 /\ 1 <= N1 iperm q0 <= n /\ N1 jperm (N1 iperm q0) <> 0 /\
    N1 irn (N1 jperm (N1 iperm q0)) = q0 /\ 1 <= N1 jperm (N1 iperm q0) <= length irn /\
    next_inv (popped t) (N1 iperm q0) q0 (N1 ip (N1 iperm q0)) (popped t).
  Proof.
    intros t HT HF Hlt q0. pose proof HT as (HH & Q1 & Q2 & Q3 & Ld & T & SP). pose proof HH as (Lq & Ll & A & B).
    destruct (A (t_up K t - 1)) as (X1 & _ & _ & X2); [unfold reg; lia|lia|]. fold q0 in X1, X2.
    pose proof T as (Lo & Lp & PJ & T0). destruct (T0 q0 X1) as (N0 & _); [lia|].
    destruct (iperm_ok q0 X1 N0) as (Y1 & Y2 & Y3).
    pose proof MM as (_ & _ & _ & M2). destruct (M2 _ Y1 Y2) as (Z1 & _). pose proof (incol_k K n ip irn a PW La _ _ Y1 Z1).
    split; [auto|]. split; [auto|]. split; [auto|]. split; [auto|]. split; [auto|]. split; [auto|]. split; [auto|].
    split; [|split; [auto|split; [cbn [popped t_up t_l]; lia|]]].
    - split; [auto|]. cbn. split; [auto|]. split; [lia|]. split; [lia|]. split; [auto|].
      split; [eapply (TI_up K n ip irn a La iperm jperm u Lu jord Hjord Fjord); [exact T|lia]|apply (SPI_up K n ip irn a La iperm jperm u Lu jord Hjord Fjord); auto].
    - intros F. cbn [popped t_l t_d t_csp t_up]. destruct (HF F) as (D & C & V). split; [auto|]. split; [auto|].
      intros EC c k Hc HSt Hk. destruct (Nat.eq_dec c (N1 iperm q0)) as [->|Hcq]; [left; split; [auto|destruct Hk; lia]|].
      destruct (V EC c k Hc) as [[]|X]; auto. destruct HSt as [->|(r & Hr & Er & Hu)]; [now left|]. right. exists r. split; [auto|]. split; [auto|].
      destruct (Nat.le_gt_cases (t_up K t) (N1 (t_l K t) r)); [auto|]. exfalso. apply Hcq. rewrite <- Er. f_equal.
      assert (El : N1 (t_l K t) r = t_up K t - 1) by lia.
      destruct (B r Hr) as [Y|(_ & _ & Y)]; [lia|lia|lia|]. rewrite El in Y. auto.
  Qed.

  Lemma search_step_d : forall s, SI s -> FI0 s -> DI0 s -> wlp (search_step K n ip irn a iperm jperm u s) (fun r =>
    DI0 (snd r) /\ (fst r = false -> TERM (snd r))).
  Proof.
    intros s HS HFI DD. unfold search_step. lb. eapply wlp_use; [eapply refill_l; eauto|].
    eapply wlp_conseq; [apply refill_d; eauto|].
    intros [go t] (DT & TT) (HT & HU & HG & HF & HD). cbn [fst snd] in *. destruct go; cbn [negb]. 2:{ apply wlp_ok. cbn [fst snd]. auto. }
    specialize (HG eq_refl). clear TT HD. destruct (step_up t HT HF HG) as (X1 & X2 & X3 & X4 & X5 & X6 & X7 & X8).
    pose proof HT as (HH & Q1 & Q2 & Q3 & Ld & T & SP). pose proof HH as (Lq & Ll & A & B). pose proof DT as (H1 & H2 & H3 & H4 & H5 & H6 & H7).
    lg 0. set (q0 := N1 (t_q K t) (t_up K t - 1)) in *. lg (r0 K).
    assert (DQ1 : kle (t_dmin K t) (ndx (t_d K t) q0)) by (apply H3; auto; lia).
    assert (DQ2 : kle (ndx (t_d K t) q0) (t_dmin K t)) by (apply H2; auto; lia).
    destruct (rle K _ _) eqn:ERL.
    { apply wlp_ok. cbn [fst snd]. split; [auto|]. intros _ i Hi Hl Hu. eapply KTn; [exact ERL|]. eapply KTn; [exact DQ2|]. apply H3; auto. }
    apply (nkle K ev EA) in ERL. cbv zeta. lg 0. lg 0. lg (r0 K). lg (r0 K). fold (popped t).
    set (j := N1 iperm q0) in *. set (vj := radd K _ _).
    assert (FQ : fin (ndx (t_d K t) q0)). { apply (fin_used _ _ _ HF X1). lia. }
    destruct (fsub K ev EA _ _ FQ (fa _ X7)) as (F1 & E1). pose proof (fu _ X7) as F2. rewrite X6 in F2.
    destruct (fadd K ev EA _ _ F1 F2) as (F3 & E3). fold vj in F3, E3.
    assert (NJ : j <> jord) by (eapply iperm_jord; eauto).
    assert (EV : rv vj = VV (t_d K t) j).
    { rewrite E3, E1. unfold VV. destruct (Nat.eqb_spec j jord); [contradiction|]. unfold RC, CC, UU. rewrite X6. lra. }
    assert (D0 : DN j q0 vj (N1 ip j) (popped t)).
    { split; [|split; auto]. unfold DI. cbn [popped t_d t_qlen t_q t_low t_l t_dmin t_up t_csp t_out t_pr t_jsp t_isp].
      assert (UP : forall r, 1 <= r <= n -> t_up K t - 1 <= N1 (t_l K t) r -> r = q0 \/ t_up K t <= N1 (t_l K t) r).
      { intros r Hr Hl. destruct (Nat.le_gt_cases (t_up K t) (N1 (t_l K t) r)); [auto|]. left.
        assert (El : N1 (t_l K t) r = t_up K t - 1) by lia. destruct (B r Hr) as [Y|(_ & _ & Y)]; [lia|lia|lia|]. rewrite El in Y. auto. }
      split; [auto|]. split; [auto|]. split; [intros; apply H3; auto; lia|]. split; [|split; [auto|split; [auto|]]].
      - intros i Hi Hl. destruct (UP i Hi Hl) as [->|]; auto.
      - intros c k Hc HST Hk. destruct (Nat.eq_dec c j) as [->|Hcj]; [left; split; [auto|destruct Hk; lia]|]. right.
        destruct (H7 c k Hc) as [[]|X]; auto. destruct HST as [->|(r & Hr & Er & Hu)]; [now left|]. right. exists r. split; [auto|]. split; [auto|].
        destruct (UP r Hr Hu) as [->|]; [exfalso; apply Hcj; rewrite <- Er; reflexivity|auto]. }
    assert (W : wp (scan_next K n ip irn a iperm u j vj (popped t)) (fun s' => next_inv (popped t) j q0 (N1 ip (S j)) s' /\ DN j q0 vj (N1 ip (S j)) s')).
    { apply (over_col_l K n ip irn a PW La _ j _ (popped t) (fun k s' => next_inv (popped t) j q0 k s' /\ DN j q0 vj k s')); [auto|auto|].
      intros k s' Hk (N1' & N2'). eapply wp_conseq.
      - apply wp_wlp; [apply (next_step K n ip irn a PW La REQ iperm jperm u MM Lu fin XTRA jord Hjord Fjord (popped t) j vj q0); auto; cbn [popped t_up]; lia|].
        apply (next_dual (popped t) j vj q0 k s'); auto. cbn [popped t_up]; lia.
      - intros s2 (A1 & A2). auto. }
    lb. intros s' E'. pose proof (wp_ok_inv _ _ _ _ E' W) as (_ & ((I1 & I2 & I3 & I4 & I5 & I6 & I7) & _)). apply wlp_ok. cbn [fst snd]. split; [|discriminate].
    repeat (split; [assumption|]). intros c k Hc HST Hk. right. destruct (I7 c k Hc HST Hk) as [(-> & F)|F]; [destruct Hk; lia|auto].
  Qed.

  Lemma search_d : forall num s, SI s -> FI0 s -> DI0 s -> t_up K s = S n -> num = cnt n iperm ->
    wp (loop num (search_step K n ip irn a iperm jperm u) s) (fun s' => SI s' /\ S n <= t_up K s' + num /\ FI0 s' /\ done s' /\ DI0 s' /\ TERM s').
  Proof.
    intros num s HS HF0 HD HU HN. apply (wp_loop _ (fun t s' => SI s' /\ FI0 s' /\ DI0 s' /\ S n = t_up K s' + t)).
    - split; [auto|]. split; [auto|]. split; [auto|lia].
    - intros s' (S1 & S2 & SD & S3). pose proof (used_le K n ip irn a PW La iperm jperm u MM Lu jord Hjord Fjord s' S1).
      pose proof S1 as ((_ & _ & _ & B) & Q1 & Q2 & Q3 & _). split; [auto|]. split; [lia|]. split; [auto|]. split; [intros _ _; lia|]. split; [auto|].
      intros i Hi Hl Hu. destruct (B i Hi) as [F|(F1 & F2 & F3)]; try lia. unfold reg in F1. lia.
    - intros t s' Ht (S1 & S2 & SD & S3). eapply wp_conseq; [apply wp_wlp; [apply (search_step_l K n ip irn a PW La REQ iperm jperm u MM Lu fin XTRA jord Hjord Fjord s' S1 S2)|apply search_step_d; auto]|].
      intros [go s2]. cbn [fst snd]. intros ((S4 & S5 & S6) & S7 & S8).
      destruct go; (split; [auto|]). { split; [auto|]. split; [auto|]. lia. } destruct S6. split; [lia|]. auto.
  Qed.

  (** ** The starting column *)
  Definition red (k : nat) : RR := rsub K (ndx a k) (ndx u (N1 irn k)).
  Lemma red_fin : forall k, 1 <= k <= length irn -> fin (red k) /\ rv (red k) = RC k.
  Proof. intros k Hk. destruct (fsub K ev EA _ _ (fa k Hk) (fu k Hk)) as (A & B). split; auto. Qed.

  Definition FD (kc : nat) (s : sst K) : Prop :=
    (forall kk, 1 <= kk <= t_qlen K s -> N1 ip jord <= N1 (t_q K s) kk < kc /\ ndx (t_d K s) (N1 irn (N1 (t_q K s) kk)) = red (N1 (t_q K s) kk) /\
       kle (t_dmin K s) (red (N1 (t_q K s) kk))) /\
    (t_csp K s = rinf K \/ (t_csp K s = red (t_isp K s) /\ t_jsp K s = jord /\ incol jord (t_isp K s))) /\
    (forall k, N1 ip jord <= k < kc -> kle (t_csp K s) (red k) \/ exists kk, 1 <= kk <= t_qlen K s /\ N1 (t_q K s) kk = k).

  Lemma scan_first_d : forall s0, t_qlen K s0 = 0 -> t_csp K s0 = rinf K -> wlp (scan_first K ip irn a iperm u jord s0) (FD (N1 ip (S jord))).
  Proof.
    intros s0 Hq Hc. unfold scan_first, over_col. lg 0. lg 0. pose proof (pw_mono _ _ _ PW jord Hjord) as MO.
    apply wlp_for_range with (I := FD); [auto| |].
    - split; [intros; lia|]. split; [auto|]. intros; lia.
    - intros k s Hk (I1 & I2 & I3). assert (Ck : incol jord k) by (unfold EqProofs2.incol; lia).
      pose proof (incol_row K n ip irn a PW La jord k Hjord Ck) as Rk.
      lg 0. lb. unfold reduced. lg 0. lg (r0 K). lg (r0 K). apply wlp_ok. fold (red k).
      assert (NEXT : forall kk, 1 <= kk <= t_qlen K s -> N1 ip jord <= N1 (t_q K s) kk < S k /\ ndx (t_d K s) (N1 irn (N1 (t_q K s) kk)) = red (N1 (t_q K s) kk) /\
        kle (t_dmin K s) (red (N1 (t_q K s) kk))).
      { intros kk Hkk. destruct (I1 kk Hkk) as (X1 & X2). split; [lia|auto]. }
      destruct (rle K _ _) eqn:ERL.
      { apply wlp_ok. split; [auto|]. split; [auto|]. intros k' Hk'. destruct (Nat.eq_dec k' k) as [->|]; [left; auto|apply I3; lia]. }
      apply (nkle K ev EA) in ERL. lg 0. destruct (Nat.eqb_spec (N1 iperm (N1 irn k)) 0) as [E|E].
      + apply wlp_ok. unfold FD. cbn [t_d t_qlen t_q t_dmin t_csp t_jsp t_isp]. split; [auto|]. split; [auto|]. intros k' Hk'.
        destruct (Nat.eq_dec k' k) as [->|]; [left; apply (krefl K KTOTn)|]. destruct (I3 k' ltac:(lia)) as [F|F]; [left|auto]. eapply KTn; eauto.
      + ls. ls. apply wlp_ok. unfold FD. cbn [t_d t_qlen t_q t_dmin t_csp t_jsp t_isp]. set (dm := if rlt K _ _ then _ else _).
        assert (DM : kle dm (red k) /\ kle dm (t_dmin K s)).
        { unfold dm. destruct (rlt K _ _) eqn:ER; [split; [apply (krefl K KTOTn)|apply (kltt K KTOTn KLTn); auto]|split; [apply (kltf K KLTn); auto|apply (krefl K KTOTn)]]. }
        split; [|split; [auto|]].
        * intros kk Hkk. rewrite (n1_upd _ 0 (t_q K s)) by lia. destruct (Nat.eqb_spec kk (S (t_qlen K s))).
          -- rewrite n1_eq by lia. split; [lia|]. split; [auto|apply DM].
          -- destruct (I1 kk ltac:(lia)) as (X1 & X2 & X3). split; [lia|]. assert (Ck' : incol jord (N1 (t_q K s) kk)) by (unfold EqProofs2.incol; lia).
             pose proof (incol_row K n ip irn a PW La jord _ Hjord Ck'). rewrite n1_neq; try lia.
             2:{ intros F. pose proof (pw_nodup _ _ _ PW jord _ _ Hjord Ck' Ck F). lia. }
             split; [auto|]. eapply KTn; [apply DM|auto].
        * intros k' Hk'. destruct (Nat.eq_dec k' k) as [->|].
          -- right. exists (S (t_qlen K s)). split; [lia|]. apply n1_eq. lia.
          -- destruct (I3 k' ltac:(lia)) as [F|(kk & F1 & F2)]; [auto|]. right. exists kk. split; [lia|]. rewrite n1_neq by lia. auto.
  Qed.

  Definition BD (s : sst K) (kc : nat) (t : sst K) : Prop :=
    HO K (t_d K t) (t_qlen K t) (t_q K t) /\
    (forall i, 1 <= i <= n -> t_low K t <= N1 (t_l K t) i -> kle (ndx (t_d K t) i) (t_dmin K t)) /\
    (forall i, 1 <= i <= n -> N1 (t_l K t) i <> 0 -> kle (t_dmin K t) (ndx (t_d K t) i)) /\
    (forall i pj, 1 <= i <= n -> N1 (t_l K t) i <> 0 -> n1 None (t_pr K t) (N1 iperm i) = Some pj ->
       pj = jord /\ rv (ndx (t_d K t) i) = RC (N1 (t_out K t) (N1 iperm i))) /\
    (forall kk, kc <= kk <= t_qlen K s -> ndx (t_d K t) (N1 irn (N1 (t_q K s) kk)) = red (N1 (t_q K s) kk)) /\
    (forall kk, 1 <= kk < kc -> kle (t_csp K s) (red (N1 (t_q K s) kk)) \/ (N1 (t_l K t) (N1 irn (N1 (t_q K s) kk)) <> 0 /\
       (rv (ndx (t_d K t) (N1 irn (N1 (t_q K s) kk))) <= RC (N1 (t_q K s) kk))%R)) /\
    t_dmin K t = t_dmin K s /\ t_csp K t = t_csp K s /\ t_isp K t = t_isp K s /\ t_jsp K t = t_jsp K s.

  Notation first_inv := (first_inv K n ip irn a iperm u fin XTRA jord).
  Notation build_inv := (build_inv K n ip irn a iperm u fin XTRA jord).

  Lemma build_dual : forall s0 s kc t, first_inv s0 (N1 ip (S jord)) s -> FD (N1 ip (S jord)) s -> 1 <= kc < S (t_qlen K s) ->
    build_inv s kc t -> BD s kc t -> wlp (build_body K n irn iperm jord kc t) (fun t' => build_inv s (S kc) t' -> BD s (S kc) t').
  Proof.
    intros s0 s kc t FI1 (FD1 & _ & _) Hkc (S0 & S1 & S2 & (_ & SF) & S3 & S4) (B1 & B2 & B3 & B4 & B5 & B6 & B7 & B8 & B9 & B10).
    destruct FI1 as (_ & _ & _ & _ & _ & _ & _ & _ & I9 & I10 & _).
    pose proof S0 as (HH & Q1 & Q2 & Q3 & Ld & T & SP). pose proof HH as (Lq & Ll & A & B). pose proof T as (Lo & Lp & PJ & T0).
    set (kf := N1 (t_q K s)) in *.
    assert (KF : forall kk, 1 <= kk <= t_qlen K s -> incol jord (kf kk) /\ N1 iperm (N1 irn (kf kk)) <> 0 /\
      1 <= kf kk <= length irn /\ 1 <= N1 irn (kf kk) <= n).
    { intros kk Hkk. destruct (I9 kk Hkk) as (X1 & X2). split; [exact X1|]. split; [auto|].
      split; [eapply (incol_k K n ip irn a PW La); eauto|eapply (incol_row K n ip irn a PW La); eauto]. }
    assert (KINJ : forall kk kk', 1 <= kk -> kk < kk' -> kk' <= t_qlen K s -> N1 irn (kf kk) <> N1 irn (kf kk')).
    { intros kk kk' H1 H2 H3 E. pose proof (I10 kk kk' H1 H2 H3).
      pose proof (pw_nodup _ _ _ PW jord (kf kk) (kf kk') Hjord (proj1 (KF kk ltac:(lia))) (proj1 (KF kk' ltac:(lia))) E). unfold kf in *. lia. }
    destruct (S2 kc ltac:(lia)) as (KQ & KL). destruct (KF kc ltac:(lia)) as (F1 & F2 & F3 & F4).
    destruct (red_fin (kf kc) F3) as (FR & RR1). pose proof (B5 kc ltac:(lia)) as DK.
    assert (QR : forall pos, 1 <= pos <= t_qlen K t -> 1 <= N1 (t_q K t) pos <= n /\ N1 (t_l K t) (N1 (t_q K t) pos) = pos).
    { intros pos Hp. destruct (A pos) as (X1 & _ & _ & X4); [unfold reg; lia|lia|auto]. }
    unfold build_body. lg 0. rewrite KQ. lg 0. set (x := N1 irn (kf kc)) in *. lg (r0 K). rewrite DK.
    destruct (rle K (t_csp K t) _) eqn:ERL.
    - ls. apply wlp_ok. intros _. unfold BD. cbn [t_d t_qlen t_q t_low t_l t_dmin t_up t_csp t_out t_pr t_jsp t_isp].
      assert (DO : forall i, 1 <= i <= n -> N1 (t_l K t) i <> 0 -> ndx (upd (t_d K t) (x - 1) (rinf K)) i = ndx (t_d K t) i).
      { intros i Hi Hl. rewrite n1_neq; auto; try lia. intros ->. auto. }
      split; [|split; [|split; [|split; [|split; [|split; [|auto]]]]]].
      + intros pos Hp. pose proof (div2_spec pos). rewrite !DO; try (apply QR; lia); [apply B1; auto| |].
        * destruct (QR pos ltac:(lia)) as (_ & X). rewrite X. lia.
        * destruct (QR (Nat.div2 pos) ltac:(lia)) as (_ & X). rewrite X. lia.
      + intros i Hi Hl. rewrite DO; auto. lia.
      + intros i Hi Hl. rewrite DO; auto.
      + intros i pj Hi Hl. rewrite DO; auto.
      + intros kk Hkk. destruct (KF kk ltac:(lia)) as (_ & _ & _ & Z). pose proof (KINJ kc kk ltac:(lia) ltac:(lia) ltac:(lia)).
        fold kf. rewrite n1_neq; [apply B5; lia|lia|lia|apply not_eq_sym; assumption].
      + intros kk Hkk. fold kf. destruct (Nat.eq_dec kk kc) as [->|]. { left. rewrite <- B8. exact ERL. }
        destruct (B6 kk ltac:(lia)) as [X|(X & X')]; [auto|]. right. split; [auto|]. destruct (KF kk ltac:(lia)) as (_ & _ & _ & Z). rewrite DO; auto.
    - lb. eapply wlp_conseq.
      { match goal with |- wlp ?m _ => assert (EQ : m = (if rle K (red (kf kc)) (t_dmin K t) then
                  '(q, l, qlen) <- (if negb (N1 (t_l K t) x =? 0) then heap_del K (N1 (t_l K t) x) (t_qlen K t) n (t_q K t) (t_d K t) (t_l K t) else Ok (t_q K t, t_l K t, t_qlen K t)) ;;
                  let low := t_low K t - 1 in
                  q <- s1 q low x ;; l <- s1 l x low ;; Ok (q, l, qlen, low)
                else
                  '(l, qlen) <- (if N1 (t_l K t) x =? 0 then l <- s1 (t_l K t) x (S (t_qlen K t)) ;; Ok (l, S (t_qlen K t)) else Ok (t_l K t, t_qlen K t)) ;;
                  '(q, l) <- heap_up K x n (t_q K t) (t_d K t) l ;;
                  Ok (q, l, qlen, t_low K t))) end.
        { rewrite KL. cbn [Nat.eqb negb bind]. destruct (rle K _ (t_dmin K t)); [reflexivity|]. destruct (s1 (t_l K t) x (S (t_qlen K t))); reflexivity. }
        rewrite EQ. apply (move_d (t_qlen K t) (t_low K t) (t_q K t) (t_l K t) (t_d K t) x (red (kf kc)) (t_dmin K t) HH); auto; lia. }
      intros [[[q' l'] qlen'] low'] (G1 & G2 & G3 & G4 & G5). lb. unfold set_tree. lg 0. ls. ls. apply wlp_ok. apply wlp_ok.
      intros ((HH' & _ & Q2' & _) & _). cbn [t_d t_qlen t_q t_low t_l t_dmin t_up t_csp t_out t_pr t_jsp t_isp] in HH', Q2'.
      unfold BD. cbn [t_d t_qlen t_q t_low t_l t_dmin t_up t_csp t_out t_pr t_jsp t_isp].
      assert (LX' : N1 l' x <> 0) by (destruct (rle K _ (t_dmin K t)); destruct G5; lia).
      assert (ZU : forall i, 1 <= i <= n -> i <> x -> (N1 l' i <> 0 <-> N1 (t_l K t) i <> 0) /\ (low' <= N1 l' i -> t_low K t <= N1 (t_l K t) i)).
      { intros i Hi Hne. destruct (G4 i Hi Hne) as (Y1 & Y2 & Y3). destruct (B i Hi ltac:(lia) ltac:(lia)) as [F|(F5 & F6 & F7)].
        { rewrite (Y1 F). split; [tauto|]. destruct (rle K _ (t_dmin K t)); destruct G5; lia. }
        unfold reg in F5. destruct F5 as (F5 & [F8|F8]); [specialize (Y3 ltac:(lia)); lia|]. rewrite Y2 by auto. tauto. }
      destruct (iperm_ok x F4 F2) as (X1 & _).
      split; [auto|]. split; [|split; [|split; [|split; [|split; [|auto]]]]].
      + intros i Hi Hl. destruct (Nat.eq_dec i x) as [->|Hne].
        * rewrite DK. destruct (rle K _ (t_dmin K t)) eqn:ER; [exact ER|]. destruct G5. lia.
        * apply B2; auto. apply ZU; auto.
      + intros i Hi Hl. destruct (Nat.eq_dec i x) as [->|Hne]; [|apply B3; auto; apply ZU; auto].
        rewrite DK. rewrite B7. apply FD1. lia.
      + intros i pj Hi Hl HP. destruct (Nat.eq_dec i x) as [->|Hne].
        * rewrite n1_eq in HP by lia. injection HP as <-. rewrite DK, n1_eq by lia. auto.
        * apply ZU in Hl; auto. destruct (T0 i Hi Hl) as (NI & _). destruct (iperm_ok i Hi NI) as (Y1 & _).
          assert (N1 iperm i <> N1 iperm x). { intros Ei. apply Hne. eapply iperm_inj; eauto. }
          rewrite n1_neq in HP by (auto; lia). rewrite n1_neq by (auto; lia). auto.
      + intros kk Hkk. apply B5. lia.
      + intros kk Hkk. fold kf. destruct (Nat.eq_dec kk kc) as [->|].
        { right. fold x. split; [auto|]. rewrite DK, RR1. lra. }
        destruct (B6 kk ltac:(lia)) as [X|(X & X')]; [auto|]. right. split; [|auto]. destruct (KF kk ltac:(lia)) as (_ & _ & _ & Z).
        apply ZU; auto. apply KINJ; lia.
  Qed.

  Lemma build_heap_d : forall s0 s, first_inv s0 (N1 ip (S jord)) s -> FD (N1 ip (S jord)) s ->
    2 * (N1 ip (S jord) - N1 ip jord) <= n + 1 -> t_low K s0 = S n -> t_up K s0 = S n ->
    length (t_l K s0) = n -> (forall i, 1 <= i <= n -> N1 (t_l K s0) i = 0) ->
    length (t_out K s0) = n -> length (t_pr K s0) = n -> n1 None (t_pr K s0) jord = None ->
    wp (build_heap K n irn iperm jord s) (fun s' => SI s' /\ t_up K s' = S n /\ FI0 s' /\ DI0 s').
  Proof.
    intros s0 s H1 HFD H2 H3 H4 H5 H6 H7 H8 H9.
    destruct (build_step K n ip irn a PW La iperm jperm u MM Lu fin XTRA jord Hjord Fjord s0 s H1 H2 H3 H4 H5 H6 H7 H8 H9) as (B1 & B2 & B3).
    apply wp_conseq with (P := fun t => build_inv s (S (t_qlen K s)) t /\ BD s (S (t_qlen K s)) t).
    - apply (for_range_inv _ (fun kc t => build_inv s kc t /\ BD s kc t)); [lia| |].
      + split; [exact B1|]. destruct HFD as (D1 & D2 & D3). pose proof H1 as (E1 & _). assert (ZL : forall i, 1 <= i <= n -> N1 (t_l K s) i = 0) by (rewrite E1; auto).
        pose proof H1 as (_ & _ & _ & E4 & _).
        unfold BD, build_0. cbn [t_d t_qlen t_q t_low t_l t_dmin t_up t_csp t_out t_pr t_jsp t_isp].
        split; [intros pos Hp; lia|]. split. { intros i Hi Hl. rewrite E4, H3, ZL in Hl by auto. lia. }
        split; [intros i Hi Hl; rewrite ZL in Hl by auto; lia|]. split; [intros i pj Hi Hl; rewrite ZL in Hl by auto; lia|].
        split; [intros kk Hkk; apply D1; auto|]. split; [intros; lia|auto].
      + intros kc t Hkc (X1 & X2). eapply wp_conseq; [apply wp_wlp; [apply (B2 kc t Hkc X1)|apply (build_dual s0 s kc t H1 HFD Hkc X1 X2)]|].
        intros t' (Y1 & Y2). auto.
    - intros t (X1 & X2). destruct (B3 t X1) as (Y1 & Y2 & Y3). split; [auto|]. split; [auto|]. split; [auto|].
      destruct X2 as (C1 & C2 & C3 & C4 & C5 & C6 & C7 & C8 & C9 & C10). destruct HFD as (D1 & D2 & D3).
      pose proof Y1 as ((_ & _ & _ & B) & _).
      assert (NU : forall i, 1 <= i <= n -> t_up K t <= N1 (t_l K t) i -> False).
      { intros i Hi Hl. rewrite Y2 in Hl. destruct (B i Hi) as [F|(F5 & _)]; try lia. unfold reg in F5. lia. }
      assert (VJ : VV (t_d K t) jord = 0%R) by (unfold VV; now rewrite Nat.eqb_refl).
      split; [auto|]. split; [auto|]. split; [auto|]. split; [intros i Hi Hl; exfalso; eauto|]. split; [|split].
      + intros i pj Hi Hl HP. destruct (C4 i pj Hi Hl HP) as (-> & E). rewrite VJ. lra.
      + rewrite C8, C9, C10. intros FC. destruct D2 as [D2|(E1 & E2 & E3)].
        { rewrite D2 in FC. destruct FC as (z & FC). rewrite (ea_inf _ _ EA) in FC. discriminate. }
        rewrite E2, VJ. rewrite E1. destruct (red_fin (t_isp K s)) as (_ & R1); [eapply (incol_k K n ip irn a PW La); eauto|]. lra.
      + intros c k Hc HST Hk. right. destruct HST as [->|(r & Hr & _ & Hu)]; [|exfalso; eauto]. rewrite VJ.
        destruct (red_fin k) as (R1 & R2); [eapply (incol_k K n ip irn a PW La); eauto|]. rewrite Rplus_0_l.
        assert (CV : kle (t_csp K s) (red k) -> cle (t_csp K t) (RC k)). { intros L. rewrite C8, <- R2. apply (k_cle K ev EA); auto. }
        destruct (D3 k Hk) as [F|(kk & F1 & F2)]; [left; auto|]. destruct (C6 kk ltac:(lia)) as [F|F]; rewrite F2 in F; [left; auto|right; auto].
  Qed.
End Dual.
