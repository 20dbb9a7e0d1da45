(** * AugProofs1: the storage cells under relabelling of nodes. *)
From Coq Require Import List Arith Lia Bool.
From Verif Require Import Base Scalar CSModel CSSpec ConvModel ConvSpec ConvProofs2 PruneModel PruneProofs AugModel AugSpec.
Import ListNotations.

Ltac simple_nat a := match a with
  | context[if _ then _ else _] => fail 1
  | _ => idtac end.
Ltac natb := repeat match goal with
  | |- context[?a <? ?b] => simple_nat a; simple_nat b; destruct (Nat.ltb_spec a b)
  | |- context[?a =? ?b] => simple_nat a; simple_nat b; destruct (Nat.eqb_spec a b)
  | |- context[?a <=? ?b] => simple_nat a; simple_nat b; destruct (Nat.leb_spec a b) end.

(** Position maps of the rotations. *)
Definition rl (s n k : nat) : nat :=
  if k <? s then k else if k <? s + n - 1 then S k else if k =? s + n - 1 then s else k.
Definition rr (s n k : nat) : nat :=
  if k <? s then k else if k =? s then s + n - 1 else if k <? s + n then k - 1 else k.

Lemma rl_rr : forall s n k, 0 < n -> rl s n (rr s n k) = k.
Proof. intros. unfold rr. natb; unfold rl; natb; lia. Qed.
Lemma rr_rl : forall s n k, 0 < n -> rr s n (rl s n k) = k.
Proof. intros. unfold rl. natb; unfold rr; natb; lia. Qed.

(** A pair of position maps moving only the range [s, s+n). *)
Record pmap (N s n : nat) (f g : nat -> nat) : Prop := {
  pm_in : s + n <= N;
  pm_fg : forall k, f (g k) = k;
  pm_gf : forall k, g (f k) = k;
  pm_f : forall k, s <= k < s + n -> s <= f k < s + n;
  pm_g : forall k, s <= k < s + n -> s <= g k < s + n;
  pm_o : forall k, ~ (s <= k < s + n) -> f k = k;
  pm_p : forall k, ~ (s <= k < s + n) -> g k = k
}.
Lemma pmap_rl : forall N s n, 0 < n -> s + n <= N -> pmap N s n (rl s n) (rr s n).
Proof.
  intros. constructor; auto; try (intros; apply rl_rr; auto); try (intros; apply rr_rl; auto);
  intros k Hk; unfold rl, rr; natb; lia.
Qed.
Lemma pmap_rr : forall N s n, 0 < n -> s + n <= N -> pmap N s n (rr s n) (rl s n).
Proof.
  intros. constructor; auto; try (intros; apply rl_rr; auto); try (intros; apply rr_rl; auto);
  intros k Hk; unfold rl, rr; natb; lia.
Qed.
Lemma pmap_lt : forall N s n f g, pmap N s n f g -> forall k, k < N -> f k < N /\ g k < N.
Proof.
  intros N s n f g P k Hk. destruct (le_lt_dec s k); [destruct (le_lt_dec (s + n) k)|].
  - rewrite (pm_o _ _ _ _ _ P), (pm_p _ _ _ _ _ P) by lia. auto.
  - pose proof (pm_f _ _ _ _ _ P k). pose proof (pm_g _ _ _ _ _ P k). pose proof (pm_in _ _ _ _ _ P). lia.
  - rewrite (pm_o _ _ _ _ _ P), (pm_p _ _ _ _ _ P) by lia. auto.
Qed.

(** Mutually inverse arrays. *)
Record inv2 (N : nat) (vp vpi : list nat) : Prop := {
  i_l1 : length vp = N; i_l2 : length vpi = N;
  i_r1 : forall x, x < N -> nth x vp 0 < N;
  i_r2 : forall p, p < N -> nth p vpi 0 < N;
  i_1 : forall p, p < N -> nth (nth p vpi 0) vp 0 = p;
  i_2 : forall x, x < N -> nth (nth x vp 0) vpi 0 = x
}.

Lemma renumber_l : forall N s n f g vp vpi vpi', inv2 N vp vpi -> pmap N s n f g ->
  length vpi' = N -> (forall k, k < N -> nth k vpi' 0 = nth (f k) vpi 0) ->
  exists vp', renumber s n vp vpi' = Ok vp' /\ inv2 N vp' vpi' /\
    forall x, x < N -> nth x vp' 0 = g (nth x vp 0).
Proof.
  intros N s n f g vp vpi vpi' I P L H.
  pose proof (pmap_lt _ _ _ _ _ P) as PL. pose proof (pm_in _ _ _ _ _ P) as PI.
  assert (INJ : forall a b, a < N -> b < N -> nth a vpi' 0 = nth b vpi' 0 -> a = b).
  { intros a b Ha Hb E. rewrite !H in E by auto.
    rewrite <- (pm_gf _ _ _ _ _ P a), <- (pm_gf _ _ _ _ _ P b). f_equal.
    rewrite <- (i_1 _ _ _ I (f a)), <- (i_1 _ _ _ I (f b)) by (apply PL; auto). now rewrite E. }
  assert (RNG : forall a, a < N -> nth a vpi' 0 < N) by (intros; rewrite H by auto; apply (i_r2 _ _ _ I); apply PL; auto).
  assert (G : wp (renumber s n vp vpi') (fun vp' => length vp' = N /\ forall p, p < N -> nth (nth p vpi' 0) vp' 0 = p)).
  { unfold renumber. eapply wp_conseq.
    - apply (for_range_inv _ (fun i vp' => length vp' = N /\
        forall p, p < N -> ~ (s + i <= p < s + n) -> nth (nth p vpi' 0) vp' 0 = p)); [lia| |].
      + split; [apply I|]. intros p Hp Ho. rewrite H by auto. rewrite (pm_o _ _ _ _ _ P) by lia. now apply I.
      + intros i v Hi (Lv & Hv). wpb. apply wp_get with (d := 0); [lia|].
        apply wp_set. { rewrite Lv. apply RNG. lia. }
        split. { now rewrite upd_length. }
        intros p Hp Ho. rewrite nth_upd by (rewrite Lv; apply RNG; lia).
        destruct (Nat.eqb_spec (nth p vpi' 0) (nth (s + i) vpi' 0)) as [E|E].
        * apply INJ in E; lia.
        * apply Hv; auto. intros Q. apply E. f_equal. lia.
    - intros v (Lv & Hv). split; auto. intros. apply Hv; auto. lia. }
  apply wp_inv in G. destruct G as (vp' & E & Lv & Hv). exists vp'. split; auto.
  assert (V : forall x, x < N -> nth x vp' 0 = g (nth x vp 0)).
  { intros x Hx. pose proof (i_r1 _ _ _ I x Hx). destruct (PL _ H0) as [_ Q].
    rewrite <- (Hv (g (nth x vp 0))) by auto. f_equal. rewrite H by auto.
    rewrite (pm_fg _ _ _ _ _ P). symmetry. now apply I. }
  split; auto. constructor; auto.
  - intros x Hx. rewrite V by auto. apply PL. now apply I.
  - intros x Hx. rewrite V by auto. rewrite H by (apply PL; now apply I).
    rewrite (pm_fg _ _ _ _ _ P). now apply I.
Qed.

Lemma rotate_vp_left_l : forall N n s vp vpi, inv2 N vp vpi -> 0 < n -> s + n <= N ->
  exists vp' vpi', rotate_vp_left n s vp vpi = Ok (vp', vpi') /\ inv2 N vp' vpi' /\
    forall x, x < N -> nth x vp' 0 = rr s n (nth x vp 0).
Proof.
  intros N n s vp vpi I Hn Hs. pose proof (i_l2 _ _ _ I) as L.
  destruct (rotate_left_l nat 0 n s vpi) as (w & E & Lw & Hw); [lia|lia|].
  destruct (renumber_l N s n (rl s n) (rr s n) vp vpi w I) as (vp' & E' & I' & V').
  - now apply pmap_rl.
  - lia.
  - intros. rewrite Hw. reflexivity.
  - exists vp', w. unfold rotate_vp_left. rewrite E. cbn [bind]. rewrite E'. auto.
Qed.

Lemma rotate_left_rl : forall X (d : X) n s v, 0 < n -> s + n <= length v ->
  exists w, rotate_left n s v = Ok w /\ length w = length v /\
    forall k, nth k w d = nth (rl s n k) v d.
Proof. intros. now apply rotate_left_l. Qed.

Lemma rotate_right_rr : forall X (d : X) n s v, 0 < n -> s + n <= length v ->
  exists w, rotate_right n (s + n - 1) v = Ok w /\ length w = length v /\
    forall k, k < length v -> nth k w d = nth (rr s n k) v d.
Proof.
  intros X d n s v Hn Hs. destruct (rotate_right_l X d n (s + n - 1) v) as (w & E & L & H); try lia.
  exists w. split; auto. split; auto. intros k Hk. rewrite H by auto. f_equal.
  unfold rr. natb; lia.
Qed.

Lemma rotate_vp_right_l : forall N n s vp vpi, inv2 N vp vpi -> 0 < n -> s + n <= N ->
  exists vp' vpi', rotate_vp_right n (s + n - 1) vp vpi = Ok (vp', vpi') /\ inv2 N vp' vpi' /\
    forall x, x < N -> nth x vp' 0 = rl s n (nth x vp 0).
Proof.
  intros N n s vp vpi I Hn Hs. pose proof (i_l2 _ _ _ I) as L.
  destruct (rotate_right_rr nat 0 n s vpi) as (w & E & Lw & Hw); [lia|lia|].
  destruct (renumber_l N s n (rr s n) (rl s n) vp vpi w I) as (vp' & E' & I' & V').
  - now apply pmap_rr.
  - lia.
  - intros. apply Hw. lia.
  - exists vp', w. unfold rotate_vp_right. rewrite E. cbn [bind].
    replace (s + n - 1 + 1 - n) with s by lia. rewrite E'. auto.
Qed.

Lemma swap_at_l : forall X (d : X) a p q, p < length a -> q < length a ->
  exists b, swap_at a p q = Ok b /\ length b = length a /\
    forall k, nth k b d = nth (if k =? q then p else if k =? p then q else k) a d.
Proof.
  intros X d a p q Hp Hq. unfold swap_at. rewrite (get_nth _ a p d Hp), (get_nth _ a q d Hq). cbn [bind].
  rewrite set_ok by auto. cbn [bind]. rewrite set_ok by (rewrite upd_length; auto).
  eexists. split; [reflexivity|]. split. { now rewrite !upd_length. }
  intros k. rewrite nth_upd by (rewrite upd_length; auto). rewrite nth_upd by auto. natb; auto.
Qed.

Section P.
  Variable O : Ops.
  Notation T := (T O).

  (** Storage cells with [np] rows starting at [stt], nodes [0..N) sitting in rows
      [inds], carrying labels [lab] and values [val]. *)
  Record core (np N nc : nat) (stt inds : list nat) (lab : nat -> nat) (val : nat -> T) (c : cells T) : Prop := {
    k_st0 : nth 0 stt 0 = 0;
    k_stl : length stt = S np;
    k_mono : forall i j, i <= j -> j <= np -> nth i stt 0 <= nth j stt 0;
    k_N : nth np stt 0 = N;
    k_li : length (c_ind c) = N;
    k_lv : length (c_val c) = N;
    k_inv : inv2 N (c_vp c) (c_vpi c);
    k_lr : length inds = N;
    k_R : forall x, x < N -> nth x inds 0 < np;
    k_pos : forall x, x < N -> nth (nth x inds 0) stt 0 <= nth x (c_vp c) 0 < nth (S (nth x inds 0)) stt 0;
    k_lab : forall x, x < N -> nth (nth x (c_vp c) 0) (c_ind c) 0 = lab x;
    k_val : forall x, x < N -> nth (nth x (c_vp c) 0) (c_val c) (t0 O) = val x;
    k_nc : forall x, x < N -> lab x < nc;
    k_sorted : forall r p q, r < np -> nth r stt 0 <= p -> p < q -> q < nth (S r) stt 0 ->
      nth p (c_ind c) 0 < nth q (c_ind c) 0
  }.

  Lemma core_uniq : forall np N nc stt inds lab val c, core np N nc stt inds lab val c ->
    forall x y, x < N -> y < N -> nth x inds 0 = nth y inds 0 -> lab x = lab y -> x = y.
  Proof.
    intros np N nc stt inds lab val c C x y Hx Hy ER EL.
    pose proof (k_pos _ _ _ _ _ _ _ _ C x Hx) as Px. pose proof (k_pos _ _ _ _ _ _ _ _ C y Hy) as Py.
    rewrite ER in Px. rewrite <- (k_lab _ _ _ _ _ _ _ _ C x Hx), <- (k_lab _ _ _ _ _ _ _ _ C y Hy) in EL.
    pose proof (k_R _ _ _ _ _ _ _ _ C y Hy) as HR. pose proof (k_inv _ _ _ _ _ _ _ _ C) as I.
    destruct (lt_eq_lt_dec (nth x (c_vp c) 0) (nth y (c_vp c) 0)) as [[H|H]|H].
    - pose proof (k_sorted _ _ _ _ _ _ _ _ C _ _ _ HR (proj1 Px) H (proj2 Py)). lia.
    - rewrite <- (i_2 _ _ _ I x Hx), <- (i_2 _ _ _ I y Hy). now rewrite H.
    - pose proof (k_sorted _ _ _ _ _ _ _ _ C _ _ _ HR (proj1 Py) H (proj2 Px)). lia.
  Qed.

  (** The node at a position of row [r] is in row [r]. *)
  Lemma core_row : forall np N nc stt inds lab val c, core np N nc stt inds lab val c ->
    forall r p, r < np -> nth r stt 0 <= p < nth (S r) stt 0 ->
    p < N /\ nth p (c_vpi c) 0 < N /\ nth (nth p (c_vpi c) 0) inds 0 = r /\ lab (nth p (c_vpi c) 0) = nth p (c_ind c) 0.
  Proof.
    intros np N nc stt inds lab val c C r p Hr Hp. pose proof (k_inv _ _ _ _ _ _ _ _ C) as I.
    assert (p < N). { rewrite <- (k_N _ _ _ _ _ _ _ _ C). pose proof (k_mono _ _ _ _ _ _ _ _ C (S r) np ltac:(lia) ltac:(lia)). lia. }
    split; auto. pose proof (i_r2 _ _ _ I p H) as Hx. split; auto.
    pose proof (k_pos _ _ _ _ _ _ _ _ C _ Hx) as Px. pose proof (k_lab _ _ _ _ _ _ _ _ C _ Hx) as Lx.
    rewrite (i_1 _ _ _ I p H) in *. split; auto.
    pose proof (k_R _ _ _ _ _ _ _ _ C _ Hx) as HR. set (r' := nth (nth p (c_vpi c) 0) inds 0) in *.
    destruct (lt_eq_lt_dec r r') as [[Q|Q]|Q]; auto.
    - pose proof (k_mono _ _ _ _ _ _ _ _ C (S r) r' ltac:(lia) ltac:(lia)). lia.
    - pose proof (k_mono _ _ _ _ _ _ _ _ C (S r') r ltac:(lia) ltac:(lia)). lia.
  Qed.

  (** Swapping the values of two nodes of one row exchanges their labels. *)
  Lemma swap_cells_l : forall np N nc stt inds lab val c x y, core np N nc stt inds lab val c ->
    x < N -> y < N -> x <> y -> nth x inds 0 = nth y inds 0 ->
    exists c', swap_cells O (nth x (c_vp c) 0) (nth y (c_vp c) 0) c = Ok c' /\
      core np N nc stt inds (fun z => if z =? x then lab y else if z =? y then lab x else lab z) val c'.
  Proof.
    intros np N nc stt inds lab val c x y C Hx Hy NE ER. pose proof (k_inv _ _ _ _ _ _ _ _ C) as I.
    destruct c as [ind v vp vpi]. cbn [c_ind c_val c_vp c_vpi] in *.
    pose proof (i_l1 _ _ _ I) as L1. pose proof (i_l2 _ _ _ I) as L2. pose proof (k_lv _ _ _ _ _ _ _ _ C) as LV. cbn in LV.
    pose proof (i_r1 _ _ _ I x Hx) as Rx. pose proof (i_r1 _ _ _ I y Hy) as Ry.
    set (p := nth x vp 0) in *. set (q := nth y vp 0) in *.
    assert (PQ : p <> q). { intro E. apply NE. rewrite <- (i_2 _ _ _ I x Hx), <- (i_2 _ _ _ I y Hy). fold p q. now rewrite E. }
    unfold swap_cells. cbn [c_ind c_val c_vp c_vpi].
    destruct (swap_at_l _ (t0 O) v p q) as (v' & E1 & Lv' & Hv'); try lia. rewrite E1. cbn [bind].
    unfold swap_val_pos. rewrite (get_nth _ vpi p 0), (get_nth _ vpi q 0) by lia. cbn [bind].
    assert (IX : nth p vpi 0 = x) by (unfold p; now apply I). assert (IY : nth q vpi 0 = y) by (unfold q; now apply I).
    rewrite IX, IY.
    destruct (swap_at_l _ 0 vp x y) as (vp' & E2 & Lp' & Hp'); try lia. rewrite E2. cbn [bind].
    destruct (swap_at_l _ 0 vpi p q) as (vpi' & E3 & Li' & Hi'); try lia. rewrite E3. cbn [bind].
    eexists. split; [reflexivity|].
    assert (VP : forall z, nth z vp' 0 = if z =? y then p else if z =? x then q else nth z vp 0).
    { intros z. rewrite Hp'. natb; auto. }
    assert (VI : forall z, nth z vpi' 0 = if z =? q then x else if z =? p then y else nth z vpi 0).
    { intros z. rewrite Hi'. natb; auto; unfold p, q; now apply I. }
    assert (NP : forall z, z < N -> z <> x -> nth z vp 0 <> p).
    { intros z Hz Nz E. apply Nz. rewrite <- (i_2 _ _ _ I z Hz), <- (i_2 _ _ _ I x Hx). fold p. now rewrite E. }
    assert (NQ : forall z, z < N -> z <> y -> nth z vp 0 <> q).
    { intros z Hz Nz E. apply Nz. rewrite <- (i_2 _ _ _ I z Hz), <- (i_2 _ _ _ I y Hy). fold q. now rewrite E. }
    constructor; cbn [c_ind c_val c_vp c_vpi]; try apply C; try lia.
    - constructor; try lia.
      + intros z Hz. rewrite VP. natb; auto. now apply I.
      + intros z Hz. rewrite VI. natb; auto. now apply I.
      + intros z Hz. rewrite VI, VP. destruct (Nat.eqb_spec z q).
        { destruct (Nat.eqb_spec x y); [lia|]. rewrite Nat.eqb_refl. auto. }
        destruct (Nat.eqb_spec z p). { rewrite Nat.eqb_refl. auto. }
        pose proof (i_1 _ _ _ I z Hz) as Q. destruct (Nat.eqb_spec (nth z vpi 0) y) as [E|E].
        { exfalso. rewrite E in Q. apply n. unfold q. auto. }
        destruct (Nat.eqb_spec (nth z vpi 0) x) as [E'|E'].
        { exfalso. rewrite E' in Q. apply n0. unfold p. auto. }
        auto.
      + intros z Hz. rewrite VP, VI. destruct (Nat.eqb_spec z y).
        { destruct (Nat.eqb_spec p q); [lia|]. rewrite Nat.eqb_refl. auto. }
        destruct (Nat.eqb_spec z x). { rewrite Nat.eqb_refl. auto. }
        destruct (Nat.eqb_spec (nth z vp 0) q). { exfalso. eapply NQ; eauto. }
        destruct (Nat.eqb_spec (nth z vp 0) p). { exfalso. eapply NP; eauto. }
        now apply I.
    - intros z Hz. rewrite VP. pose proof (k_pos _ _ _ _ _ _ _ _ C) as KP. cbn in KP. natb.
      + subst z. rewrite <- ER. now apply KP.
      + subst z. rewrite ER. now apply KP.
      + now apply KP.
    - intros z Hz. rewrite VP. pose proof (k_lab _ _ _ _ _ _ _ _ C) as KL. cbn in KL. natb; try lia.
      + now apply KL.
      + now apply KL.
      + now apply KL.
    - intros z Hz. rewrite VP, Hv'. pose proof (k_val _ _ _ _ _ _ _ _ C) as KV. cbn in KV.
      destruct (Nat.eqb_spec z y). { destruct (Nat.eqb_spec p q); [lia|]. rewrite Nat.eqb_refl. subst z. now apply KV. }
      destruct (Nat.eqb_spec z x). { rewrite Nat.eqb_refl. subst z. now apply KV. }
      destruct (Nat.eqb_spec (nth z vp 0) q). { exfalso. eapply NQ; eauto. }
      destruct (Nat.eqb_spec (nth z vp 0) p). { exfalso. eapply NP; eauto. }
      now apply KV.
    - intros z Hz. pose proof (k_nc _ _ _ _ _ _ _ _ C). natb; auto.
  Qed.

  (** Relabelling node [x] by [k] and moving cells of its row by a position map. *)
  Lemma relocate_l : forall np N nc stt inds lab val c x k s n f g ind' v' vp' vpi',
    core np N nc stt inds lab val c -> x < N -> k < nc ->
    pmap N s n f g -> nth (nth x inds 0) stt 0 <= s -> s + n <= nth (S (nth x inds 0)) stt 0 ->
    length ind' = N -> length v' = N ->
    (forall p, p < N -> nth p ind' 0 = nth (f p) (upd (c_ind c) (nth x (c_vp c) 0) k) 0) ->
    (forall p, p < N -> nth p v' (t0 O) = nth (f p) (c_val c) (t0 O)) ->
    inv2 N vp' vpi' -> (forall z, z < N -> nth z vp' 0 = g (nth z (c_vp c) 0)) ->
    (forall p q, nth (nth x inds 0) stt 0 <= p -> p < q -> q < nth (S (nth x inds 0)) stt 0 ->
       nth p ind' 0 < nth q ind' 0) ->
    core np N nc stt inds (fun z => if z =? x then k else lab z) val (mkCells ind' v' vp' vpi').
  Proof.
    intros np N nc stt inds lab val c x k s n f g ind' v' vp' vpi' C Hx Hk P S1 S2 Li Lv HI HV I' VP SO.
    pose proof (k_inv _ _ _ _ _ _ _ _ C) as I. pose proof (pmap_lt _ _ _ _ _ P) as PL.
    pose proof (k_li _ _ _ _ _ _ _ _ C) as KLI.
    set (r := nth x inds 0) in *. pose proof (k_R _ _ _ _ _ _ _ _ C x Hx) as HR. fold r in HR.
    pose proof (k_mono _ _ _ _ _ _ _ _ C) as MONO.
    assert (GR : forall r' p, r' < np -> nth r' stt 0 <= p < nth (S r') stt 0 -> nth r' stt 0 <= g p < nth (S r') stt 0).
    { intros r' p Hr' Hp. destruct (Nat.eq_dec r' r) as [->|NR].
      - destruct (le_lt_dec s p); [destruct (le_lt_dec (s + n) p)|].
        + rewrite (pm_p _ _ _ _ _ P) by lia; auto.
        + pose proof (pm_g _ _ _ _ _ P p ltac:(lia)). lia.
        + rewrite (pm_p _ _ _ _ _ P) by lia; auto.
      - rewrite (pm_p _ _ _ _ _ P); auto. intros Q. destruct (lt_eq_lt_dec r r') as [[Z|Z]|Z]; try lia.
        + pose proof (MONO (S r) r' ltac:(lia) ltac:(lia)). lia.
        + pose proof (MONO (S r') r ltac:(lia) ltac:(lia)). lia. }
    constructor; cbn [c_ind c_val c_vp c_vpi]; try apply C; auto.
    - intros z Hz. rewrite VP by auto. apply GR. now apply (k_R _ _ _ _ _ _ _ _ C). now apply (k_pos _ _ _ _ _ _ _ _ C).
    - intros z Hz. rewrite VP by auto. rewrite HI by (apply PL; now apply I).
      rewrite (pm_fg _ _ _ _ _ P). rewrite nth_upd by (rewrite KLI; now apply I).
      destruct (Nat.eqb_spec z x).
      + subst z. now rewrite Nat.eqb_refl.
      + destruct (Nat.eqb_spec (nth z (c_vp c) 0) (nth x (c_vp c) 0)) as [E|E].
        * exfalso. apply n0. rewrite <- (i_2 _ _ _ I z Hz), <- (i_2 _ _ _ I x Hx). now rewrite E.
        * now apply (k_lab _ _ _ _ _ _ _ _ C).
    - intros z Hz. rewrite VP by auto. rewrite HV by (apply PL; now apply I).
      rewrite (pm_fg _ _ _ _ _ P). now apply (k_val _ _ _ _ _ _ _ _ C).
    - intros z Hz. natb; auto. now apply (k_nc _ _ _ _ _ _ _ _ C).
    - intros r' p q Hr' Hp Hpq Hq. destruct (Nat.eq_dec r' r) as [->|NR]. { apply SO; auto. }
      assert (OUT : forall u, nth r' stt 0 <= u < nth (S r') stt 0 -> ~ (nth r stt 0 <= u < nth (S r) stt 0)).
      { intros u Hu Q. destruct (lt_eq_lt_dec r r') as [[Z|Z]|Z]; try lia.
        + pose proof (MONO (S r) r' ltac:(lia) ltac:(lia)). lia.
        + pose proof (MONO (S r') r ltac:(lia) ltac:(lia)). lia. }
      pose proof (MONO (S r') np ltac:(lia) ltac:(lia)) as B. rewrite (k_N _ _ _ _ _ _ _ _ C) in B.
      pose proof (k_pos _ _ _ _ _ _ _ _ C x Hx) as PX. fold r in PX.
      pose proof (OUT p ltac:(lia)). pose proof (OUT q ltac:(lia)).
      rewrite !HI by lia. rewrite !(pm_o _ _ _ _ _ P) by lia. rewrite !nth_upd_neq by lia.
      eapply (k_sorted _ _ _ _ _ _ _ _ C); eauto.
  Qed.

  Lemma move_cell_l : forall np N nc stt inds lab val c x k, core np N nc stt inds lab val c ->
    x < N -> k < nc -> (forall y, y < N -> nth y inds 0 = nth x inds 0 -> lab y <> k) ->
    exists c', move_cell O stt (nth x inds 0) (nth x (c_vp c) 0) k c = Ok c' /\
      core np N nc stt inds (fun z => if z =? x then k else lab z) val c'.
  Proof.
    intros np N nc stt inds lab val c x k C Hx Hk NK.
    pose proof (k_inv _ _ _ _ _ _ _ _ C) as I. pose proof (k_R _ _ _ _ _ _ _ _ C x Hx) as HR.
    pose proof (k_pos _ _ _ _ _ _ _ _ C x Hx) as PX. pose proof (k_li _ _ _ _ _ _ _ _ C) as LI.
    pose proof (k_lv _ _ _ _ _ _ _ _ C) as LV.
    set (r := nth x inds 0) in *. set (a := nth x (c_vp c) 0) in *.
    pose proof (k_mono _ _ _ _ _ _ _ _ C (S r) np ltac:(lia) ltac:(lia)) as B. rewrite (k_N _ _ _ _ _ _ _ _ C) in B.
    pose proof (k_mono _ _ _ _ _ _ _ _ C r (S r) ltac:(lia) ltac:(lia)) as B2.
    pose proof (k_stl _ _ _ _ _ _ _ _ C) as SL.
    unfold move_cell. rewrite (get_nth _ stt r 0), (get_nth _ stt (S r) 0) by lia. cbn [bind].
    set (b := nth r stt 0) in *. set (e := nth (S r) stt 0) in *.
    assert (SRT : forall p q, b <= p -> p < q -> q < e -> nth p (c_ind c) 0 < nth q (c_ind c) 0).
    { intros. eapply (k_sorted _ _ _ _ _ _ _ _ C); eauto. }
    pose proof (find_sorted_wp (c_ind c) b e k B2 ltac:(lia)) as FS.
    assert (MON : forall i j, b <= i -> i <= j -> j < e -> nth i (c_ind c) 0 <= nth j (c_ind c) 0).
    { intros i j H1 H2 H3. destruct (Nat.eq_dec i j); [subst; lia|]. pose proof (SRT i j). lia. }
    specialize (FS MON). apply wp_inv in FS. destruct FS as ([fl sec] & -> & F1 & F2 & F3 & _). cbn [fst snd bind] in *.
    assert (F3' : forall p, sec <= p < e -> k < nth p (c_ind c) 0).
    { intros p Hp. pose proof (F3 p Hp). destruct (Nat.eq_dec k (nth p (c_ind c) 0)); [|lia].
      exfalso. destruct (core_row _ _ _ _ _ _ _ _ C r p HR ltac:(fold b e; lia)) as (_ & Q2 & Q3 & Q4).
      apply (NK _ Q2 Q3). lia. }
    rewrite set_ok by lia. cbn [bind].
    destruct (Nat.eqb_spec a sec) as [E|NE].
    { eexists. split; [reflexivity|].
      eapply (relocate_l np N nc stt inds lab val c x k a 0 (fun p => p) (fun p => p)); eauto; fold r; fold a; fold b; fold e; try lia.
      - constructor; intros; lia.
      - now rewrite upd_length.
      - intros p q Hp Hpq Hq. rewrite !nth_upd by lia. natb; try lia.
        + subst p. apply F3'. lia.
        + subst q. apply F2. lia.
        + apply SRT; lia. }
    destruct (Nat.ltb_spec a sec) as [LT|GE].
    - destruct (rotate_vp_left_l N (sec - a) a (c_vp c) (c_vpi c) I) as (vp' & vpi' & E1 & I' & V'); try lia.
      rewrite E1. cbn [bind].
      destruct (rotate_left_rl _ 0 (sec - a) a (upd (c_ind c) a k)) as (i' & E2 & Li' & Hi'); try (rewrite ?upd_length; lia).
      rewrite E2. cbn [bind].
      destruct (rotate_left_rl _ (t0 O) (sec - a) a (c_val c)) as (w' & E3 & Lw' & Hw'); try lia.
      rewrite E3. cbn [bind]. eexists. split; [reflexivity|]. rewrite upd_length in Li'.
      eapply (relocate_l np N nc stt inds lab val c x k a (sec - a) (rl a (sec - a)) (rr a (sec - a))); eauto; fold r; fold a; fold b; fold e; try lia.
      { apply pmap_rl; lia. }
      intros p q Hp Hpq Hq. rewrite !Hi'. rewrite !nth_upd by lia. unfold rl.
      natb; try lia; try (apply SRT; lia); try (apply F2; lia); try (apply F3'; lia).
    - destruct (rotate_vp_right_l N (a - sec + 1) sec (c_vp c) (c_vpi c) I) as (vp' & vpi' & E1 & I' & V'); try lia.
      destruct (rotate_right_rr _ 0 (a - sec + 1) sec (upd (c_ind c) a k)) as (i' & E2 & Li' & Hi'); try (rewrite ?upd_length; lia).
      destruct (rotate_right_rr _ (t0 O) (a - sec + 1) sec (c_val c)) as (w' & E3 & Lw' & Hw'); try lia.
      replace (sec + (a - sec + 1) - 1) with a in E1, E2, E3 by lia.
      rewrite E1. cbn [bind]. rewrite E2. cbn [bind]. rewrite E3. cbn [bind]. eexists. split; [reflexivity|].
      rewrite upd_length in Li', Hi'.
      eapply (relocate_l np N nc stt inds lab val c x k sec (a - sec + 1) (rr sec (a - sec + 1)) (rl sec (a - sec + 1))); eauto; fold r; fold a; fold b; fold e; try lia.
      { apply pmap_rr; lia. }
      { intros p Hp. apply Hi'. lia. }
      { intros p Hp. apply Hw'. lia. }
      intros p q Hp Hpq Hq. rewrite !Hi' by lia. rewrite !nth_upd by lia. unfold rr.
      natb; try lia; try (apply SRT; lia); try (apply F2; lia); try (apply F3'; lia).
  Qed.

  (** Deferral: the largest label goes to the end of the row. *)
  Lemma defer_cell_l : forall np N nc stt inds lab val c x k, core np N nc stt inds lab val c ->
    x < N -> k < nc -> (forall y, y < N -> y <> x -> nth y inds 0 = nth x inds 0 -> lab y < k) ->
    let a := nth x (c_vp c) 0 in let n := nth (S (nth x inds 0)) stt 0 - a in
    exists ind v vp vpi,
      rotate_left n a (upd (c_ind c) a k) = Ok ind /\ rotate_left n a (c_val c) = Ok v /\
      rotate_vp_left n a (c_vp c) (c_vpi c) = Ok (vp, vpi) /\
      core np N nc stt inds (fun z => if z =? x then k else lab z) val (mkCells ind v vp vpi).
  Proof.
    intros np N nc stt inds lab val c x k C Hx Hk NK a n.
    pose proof (k_inv _ _ _ _ _ _ _ _ C) as I. pose proof (k_R _ _ _ _ _ _ _ _ C x Hx) as HR.
    pose proof (k_pos _ _ _ _ _ _ _ _ C x Hx) as PX. pose proof (k_li _ _ _ _ _ _ _ _ C) as LI.
    pose proof (k_lv _ _ _ _ _ _ _ _ C) as LV.
    set (r := nth x inds 0) in *. fold a in PX.
    pose proof (k_mono _ _ _ _ _ _ _ _ C (S r) np ltac:(lia) ltac:(lia)) as B. rewrite (k_N _ _ _ _ _ _ _ _ C) in B.
    set (b := nth r stt 0) in *. set (e := nth (S r) stt 0) in *.
    assert (SRT : forall p q, b <= p -> p < q -> q < e -> nth p (c_ind c) 0 < nth q (c_ind c) 0).
    { intros. eapply (k_sorted _ _ _ _ _ _ _ _ C); eauto. }
    assert (F : forall p, b <= p < e -> p <> a -> nth p (c_ind c) 0 < k).
    { intros p Hp Np. destruct (core_row _ _ _ _ _ _ _ _ C r p HR ltac:(fold b e; lia)) as (Q1 & Q2 & Q3 & Q4).
      rewrite <- Q4. apply NK; auto. intros E. apply Np. unfold a. rewrite <- E. symmetry. now apply I. }
    destruct (rotate_vp_left_l N n a (c_vp c) (c_vpi c) I) as (vp' & vpi' & E1 & I' & V'); try (unfold n; lia).
    destruct (rotate_left_rl _ 0 n a (upd (c_ind c) a k)) as (i' & E2 & Li' & Hi'); try (unfold n; rewrite ?upd_length; lia).
    destruct (rotate_left_rl _ (t0 O) n a (c_val c)) as (w' & E3 & Lw' & Hw'); try (unfold n; lia).
    exists i', w', vp', vpi'. split; auto. split; auto. split; auto. rewrite upd_length in Li'.
    eapply (relocate_l np N nc stt inds lab val c x k a n (rl a n) (rr a n)); eauto; fold r; fold a; fold b; fold e; try (unfold n; lia).
    { apply pmap_rl; unfold n; lia. }
    intros p q Hp Hpq Hq. rewrite !Hi'. rewrite !nth_upd by lia. unfold rl.
    unfold n in *. natb; try lia; try (apply SRT; lia); try (apply F; lia).
  Qed.
End P.
