(** * CroutProofs6: the invariant of the main loop; deferral preserves it. *)
From Coq Require Import List Arith Lia Bool Permutation Ring.
From Verif Require Import Base Scalar Spec CSModel CSSpec ConvModel ConvSpec BucketProofs ConvProofs ConvProofs2
  ConvProofs3 ConvProofs4 Mag VecModel VecSpec VecProofs PruneModel PruneProofs CroutModel CroutProofs1 CroutProofs2 CroutProofs3 CroutProofs4 CroutProofs5.
Import ListNotations.

(** Permutation bookkeeping of one side: positions [g..lim) are the remaining ones. *)
Record PI (n k g lim : nat) (p : list nat) (P : list (option nat)) (Pi : list nat) : Prop := mkPI {
  pi_p : length p = n; pi_P : length P = Nat.mul n 2; pi_Pi : length Pi = n;
  pi_a : forall r, g <= r < lim -> exists x, x < n /\ nth r P None = Some x /\ nth x Pi 0 = r;
  pi_b : forall i, i < k -> nth i p 0 < n /\ nth (nth i p 0) Pi 0 < g;
  pi_c : forall i j, i < k -> j < k -> nth i p 0 = nth j p 0 -> i = j;
  pi_d : forall i, g <= i < n -> nth i P None = Some (nth i p 0);
  pi_e : forall x, x < n -> g <= nth x Pi 0 -> nth x Pi 0 < lim /\ nth (nth x Pi 0) P None = Some x;
  pi_f : forall x, x < n -> nth x Pi 0 < g -> exists i, i < k /\ nth i p 0 = x }.

Lemma PI_g : forall n k g lim p P Pi, PI n k g lim p P Pi -> g < n -> n <= lim ->
  nth g p 0 < n /\ nth (nth g p 0) Pi 0 = g.
Proof.
  intros n k g lim p P Pi [] Hg Hl. destruct (pi_a0 g ltac:(lia)) as (x & Hx & E1 & E2).
  rewrite pi_d0 in E1 by lia. inversion E1; subst x. auto.
Qed.

Lemma PI_i : forall n k g lim p P Pi i, PI n k g lim p P Pi -> g <= i < n -> n <= lim ->
  nth i p 0 < n /\ nth (nth i p 0) Pi 0 = i.
Proof.
  intros n k g lim p P Pi i [] Hg Hl. destruct (pi_a0 i ltac:(lia)) as (x & Hx & E1 & E2).
  rewrite pi_d0 in E1 by lia. inversion E1; subst x. auto.
Qed.

Lemma PI_defer : forall n k g lim p P Pi, PI n k g lim p P Pi -> g < n -> n <= lim -> lim < Nat.mul n 2 ->
  PI n k (S g) (S lim) p (upd (upd P lim (Some (nth g p 0))) g None) (upd Pi (nth g p 0) lim).
Proof.
  intros n k g lim p P Pi H Hg Hl Hl2. destruct (PI_g _ _ _ _ _ _ _ H Hg Hl) as (G1 & G2). destruct H.
  assert (NP : forall r, r <> g -> nth r (upd (upd P lim (Some (nth g p 0))) g None) None = if r =? lim then Some (nth g p 0) else nth r P None).
  { intros r Hr. rewrite nth_upd_neq by auto. now rewrite nth_upd by lia. }
  assert (NPi : forall x, nth x (upd Pi (nth g p 0) lim) 0 = if x =? nth g p 0 then lim else nth x Pi 0).
  { intros x. now rewrite nth_upd by lia. }
  split; rewrite ?upd_length; auto.
  - intros r Hr. rewrite NP by lia. destruct (Nat.eqb_spec r lim) as [->|Hn].
    + exists (nth g p 0). split; auto. split; auto. rewrite NPi, Nat.eqb_refl. auto.
    + destruct (pi_a0 r ltac:(lia)) as (x & Hx & E1 & E2). exists x. split; auto. split; auto.
      rewrite NPi. destruct (Nat.eqb_spec x (nth g p 0)) as [->|]; auto. lia.
  - intros i Hi. destruct (pi_b0 i Hi) as (B1 & B2). split; auto. rewrite NPi.
    destruct (Nat.eqb_spec (nth i p 0) (nth g p 0)) as [E|]; [|lia]. rewrite E, G2 in B2. lia.
  - intros i Hi. rewrite NP by lia. destruct (Nat.eqb_spec i lim); [lia|]. apply pi_d0. lia.
  - intros x Hx. rewrite NPi. destruct (Nat.eqb_spec x (nth g p 0)) as [->|Hn]; intros Hge.
    + split; [lia|]. rewrite NP by lia. now rewrite Nat.eqb_refl.
    + destruct (pi_e0 x Hx ltac:(lia)) as (E1 & E2). split; [lia|]. rewrite NP by lia.
      destruct (Nat.eqb_spec (nth x Pi 0) lim); [lia|auto].
  - intros x Hx. rewrite NPi. destruct (Nat.eqb_spec x (nth g p 0)) as [->|Hn]; intros Hlt; [lia|].
    apply pi_f0; auto. destruct (Nat.eq_dec (nth x Pi 0) g) as [E|]; [|lia]. exfalso. apply Hn.
    destruct (pi_e0 x Hx ltac:(lia)) as (_ & E2). rewrite E in E2. rewrite pi_d0 in E2 by lia. congruence.
Qed.

Lemma PI_elim : forall n k g lim p P Pi, PI n k g lim p P Pi -> k <= g -> g < n -> n <= lim ->
  PI n (S k) (S g) lim (upd p k (nth g p 0)) P Pi.
Proof.
  intros n k g lim p P Pi H Hk Hg Hl. destruct (PI_g _ _ _ _ _ _ _ H Hg Hl) as (G1 & G2). destruct H.
  assert (Np : forall i, nth i (upd p k (nth g p 0)) 0 = if i =? k then nth g p 0 else nth i p 0).
  { intros i. now rewrite nth_upd by lia. }
  split; rewrite ?upd_length; auto.
  - intros r Hr. apply pi_a0. lia.
  - intros i Hi. rewrite Np. destruct (Nat.eqb_spec i k) as [->|]; [lia|]. destruct (pi_b0 i ltac:(lia)). lia.
  - intros i j Hi Hj. rewrite !Np. destruct (Nat.eqb_spec i k) as [->|], (Nat.eqb_spec j k) as [->|]; auto.
    + intros E. destruct (pi_b0 j ltac:(lia)). rewrite <- E in *. lia.
    + intros E. destruct (pi_b0 i ltac:(lia)). rewrite E in *. lia.
    + apply pi_c0; lia.
  - intros i Hi. rewrite Np. destruct (Nat.eqb_spec i k); [lia|]. apply pi_d0. lia.
  - intros x Hx Hge. destruct (pi_e0 x Hx ltac:(lia)). auto.
  - intros x Hx Hlt. destruct (Nat.eq_dec (nth x Pi 0) g) as [E|].
    + exists k. split; [lia|]. rewrite Np, Nat.eqb_refl. destruct (pi_e0 x Hx ltac:(lia)) as (_ & E2).
      rewrite E in E2. rewrite pi_d0 in E2 by lia. congruence.
    + destruct (pi_f0 x Hx ltac:(lia)) as (i & Hi & E). exists i. split; [lia|]. rewrite Np. destruct (Nat.eqb_spec i k); [lia|auto].
Qed.

Section A.
  Context {O : Ops}.
  Notation T := (T O).
  Notation row := (list (nat * T)).
  Notation col := (row * row)%type.
  Notation tl' c cols := (snd (nth c cols (dcol (O:=O)))).
  Notation dn' c cols := (fst (nth c cols (dcol (O:=O)))).

  Lemma deferc_lko : forall g lim (x : col), asc (map fst (snd x)) -> (forall e, In e (snd x) -> g <= fst e < lim) ->
    lko (snd (deferc g lim x)) lim = lko (snd x) g /\
    (forall r, r <> g -> r <> lim -> lko (snd (deferc g lim x)) r = lko (snd x) r) /\ fst (deferc g lim x) = fst x.
  Proof.
    intros g lim [dn tl] Ha Hr. cbn [fst snd] in *.
    assert (NL : lko tl lim = None).
    { apply lko_none. intros Hin. apply in_map_iff in Hin. destruct Hin as (e & E & He). specialize (Hr e He). lia. }
    pose proof (tail_g g lim tl Ha Hr) as TG. unfold deferc. cbn [fst snd]. destruct tl as [|[i v] t].
    - cbn [snd fst]. auto.
    - destruct (Nat.eqb_spec i g) as [->|Hn]; cbn [fst snd].
      + rewrite TG. simpl in NL. pose proof (Hr (g, v) (or_introl eq_refl)) as R0. simpl in R0.
        destruct (Nat.eqb_spec g lim); [lia|]. split; [|split; auto].
        * rewrite lko_app, NL. simpl. now rewrite Nat.eqb_refl.
        * intros r H1 H2. rewrite lko_app. simpl. destruct (Nat.eqb_spec g r); [congruence|].
          destruct (Nat.eqb_spec lim r); [congruence|]. destruct (lko t r); auto.
      + rewrite TG, NL. auto.
  Qed.

  Lemma compc_lko : forall g def k lim (x : col), asc (map fst (snd x)) -> (forall e, In e (snd x) -> g <= fst e < lim) ->
    (forall e, In e (fst x) -> fst e < k) -> g - def = k ->
    (forall r, r <> g -> lko (snd (compc g def x)) r = lko (snd x) r) /\
    lko (fst (compc g def x)) k = lko (snd x) g /\
    (forall i, i < k -> lko (fst (compc g def x)) i = lko (fst x) i).
  Proof.
    intros g def k lim [dn tl] Ha Hr Hd Ek. cbn [fst snd] in *.
    assert (ND : lko dn k = None).
    { apply lko_none. intros Hin. apply in_map_iff in Hin. destruct Hin as (e & E & He). specialize (Hd e He). lia. }
    pose proof (tail_g g lim tl Ha Hr) as TG. unfold compc. cbn [fst snd]. destruct tl as [|[i v] t].
    - cbn [snd fst]. auto.
    - rewrite TG. destruct (Nat.eqb_spec i g) as [->|Hn]; cbn [fst snd].
      + split; [|split].
        * intros r Hne. simpl. destruct (Nat.eqb_spec g r); [congruence|auto].
        * rewrite lko_app, ND. simpl. rewrite Ek, Nat.eqb_refl. auto.
        * intros j Hj. rewrite lko_app. destruct (lko dn j); auto. simpl. destruct (Nat.eqb_spec (g - def) j); [lia|auto].
      + auto.
  Qed.

  (** [LO c x]: the entry of column [c] that belongs to the original index [x]. *)
  Definition link (k g lim : nat) (p : list nat) (P : list (option nat)) (cols : list col) (LO : nat -> nat -> option T) : Prop :=
    (forall c r x, c < k -> g <= r < lim -> nth r P None = Some x -> lko (tl' c cols) r = LO c x) /\
    (forall c i, c < i -> i < k -> lko (dn' c cols) i = LO c (nth i p 0)).

  Lemma nth_map_d : forall (h : col -> col) (cols : list col) c, c < length cols -> nth c (map h cols) dcol = h (nth c cols dcol).
  Proof. intros. rewrite (nth_indep _ dcol (h dcol)) by (rewrite map_length; auto). now rewrite map_nth. Qed.

  Lemma link_defer : forall ps ss n k g lim p P Pi F (cols : list col) LO, Rep ps ss k g lim [] F cols -> PI n k g lim p P Pi ->
    g < n -> n <= lim -> lim < Nat.mul n 2 ->
    link k g lim p P cols LO ->
    link k (S g) (S lim) p (upd (upd P lim (Some (nth g p 0))) g None) (map (deferc g lim) cols) LO.
  Proof.
    intros ps ss n k g lim p P Pi F cols LO R HP Hg Hl Hl2 (L1 & L2). pose proof R as [rfm rk rst rkps rklo rlim rstart rtail rdone rchain].
    destruct HP. split.
    - intros c r x Hc Hr E. rewrite nth_map_d by lia. destruct (rtail c Hc) as (T1 & T2).
      destruct (deferc_lko g lim _ T1 T2) as (D1 & D2 & _).
      rewrite nth_upd_neq in E by lia. rewrite nth_upd in E by lia. destruct (Nat.eqb_spec r lim) as [->|Hn].
      + inversion E; subst x. rewrite D1. apply L1; [lia|lia|apply pi_d0; lia].
      + rewrite D2 by lia. apply L1; auto. lia.
    - intros c i Hc Hi. rewrite nth_map_d by lia. destruct (rtail c ltac:(lia)) as (T1 & T2).
      destruct (deferc_lko g lim _ T1 T2) as (_ & _ & D3). rewrite D3. auto.
  Qed.

  Lemma link_elim : forall ps ss n k g def lim p P Pi F (cols : list col) LO new, Rep ps ss k g lim [] F cols -> PI n k g lim p P Pi ->
    g < n -> n <= lim -> g = def + k ->
    link k g lim p P cols LO ->
    link (S k) (S g) lim (upd p k (nth g p 0)) P (map (compc g def) cols ++ [([], new)])
      (fun c x => if c =? k then (if g <? nth x Pi 0 then lko new (nth x Pi 0) else None) else LO c x).
  Proof.
    intros ps ss n k g def lim p P Pi F cols LO new R HP Hg Hl Eg (L1 & L2). pose proof R as [rfm rk rst rkps rklo rlim rstart rtail rdone rchain].
    pose proof HP as [].
    assert (NA : forall c, c < k -> nth c (map (compc g def) cols ++ [([], new)]) dcol = compc g def (nth c cols dcol)).
    { intros c Hc. rewrite app_nth1 by (rewrite map_length; lia). apply nth_map_d. lia. }
    assert (NB : nth k (map (compc g def) cols ++ [([], new)]) dcol = ([], new)).
    { rewrite app_nth2 by (rewrite map_length; lia). rewrite map_length, rk, Nat.sub_diag. auto. }
    split.
    - intros c r x Hc Hr E. destruct (Nat.eqb_spec c k) as [->|Hn].
      + rewrite NB. cbn [snd]. destruct (pi_a0 r ltac:(lia)) as (x' & _ & E1 & E2). rewrite E in E1. inversion E1; subst x'.
        rewrite E2. destruct (Nat.ltb_spec g r); [auto|lia].
      + rewrite NA by lia. destruct (rtail c ltac:(lia)) as (T1 & T2). destruct (rdone c ltac:(lia)) as (D1 & D2).
        destruct (compc_lko g def k lim _ T1 T2) as (C1 & C2 & C3); try lia. { intros e He. specialize (D2 e He). lia. }
        rewrite C1 by lia. apply L1; auto; lia.
    - intros c i Hc Hi. rewrite nth_upd by lia. destruct (Nat.eqb_spec c k) as [->|Hn]; [lia|].
      rewrite NA by lia. destruct (rtail c ltac:(lia)) as (T1 & T2). destruct (rdone c ltac:(lia)) as (D1 & D2).
      destruct (compc_lko g def k lim _ T1 T2) as (C1 & C2 & C3); try lia. { intros e He. specialize (D2 e He). lia. }
      destruct (Nat.eqb_spec i k) as [->|Hi'].
      + rewrite C2. apply L1; [lia|lia|apply pi_d0; lia].
      + rewrite C3 by lia. apply L2; lia.
  Qed.
End A.
