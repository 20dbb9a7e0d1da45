(** * CroutProofs2: compression of one factor after a step. *)
From Coq Require Import List Arith Lia Bool Permutation.
From Verif Require Import Base Scalar Spec CSModel CSSpec ConvModel ConvSpec BucketProofs ConvProofs ConvProofs2
  ConvProofs3 ConvProofs4 Mag VecModel VecSpec VecProofs PruneModel PruneProofs CroutModel CroutProofs1.
Import ListNotations.

Section R.
  Context {O : Ops}.
  Notation T := (T O).
  Notation row := (list (nat * T)).
  Notation col := (row * row)%type.

  Definition comp_body (def : nat) (c : nat) (F : Fac O) : res (Fac O * option nat) :=
      '(pos, e) <- cur_pos F c ;;
      i <- get (indices (fm F)) pos ;;
      if i <? def then UB
      else
        inds <- set (indices (fm F)) pos (i - def)%nat ;;
        o <- get (fstart F) c ;;
        start <- set (fstart F) c (S o) ;;
        next <- get (flist F) c ;;
        li <- (if negb (S pos =? e) then
                 j <- get inds (S pos) ;;
                 lj <- get (flist F) j ;;
                 li <- set (flist F) c lj ;;
                 set li j (Some c)
               else set (flist F) c None) ;;
        Ok (mkFac (mkCS (psize (fm F)) (ssize (fm F)) (ind_start (fm F)) inds (vals (fm F))) li start, next).

  Lemma upd_upd : forall X (l : list X) i a b, upd (upd l i a) i b = upd l i b.
  Proof. induction l; destruct i; simpl; intros; auto. now f_equal. Qed.

  Lemma comp_step : forall ps ss k g def lim (cols0 : list col) extra pend F cols c,
    k <= ps -> k <= g -> def <= g -> lim <= ss -> k <= ss ->
    (forall c e, c < k -> In e (snd (nth c cols0 dcol)) -> g <= fst e < lim) ->
    (forall c, c < k -> asc (map fst (snd (nth c cols0 dcol)))) ->
    MID ps ss k g (compc g def) cols0 extra (c :: pend) F cols ->
    wp (comp_body def c F) (fun r => exists cols', MID ps ss k g (compc g def) cols0 extra pend (fst r) cols' /\
      snd r = nth c (flist F) None /\ length (flist (fst r)) = length (flist F) /\
      forall h, chain (flist F) h pend -> chain (flist (fst r)) h pend).
  Proof.
    intros ps ss k g def lim cols0 extra pend F cols c Hps Hkg Hdg Hls Hkss HR HA [mfm mk mk0 mst mstart mnd mpend mcols mchain].
    destruct (mpend c (or_introl eq_refl)) as (Hc & Hg).
    assert (Ec : nth c cols dcol = nth c cols0 dcol).
    { rewrite mcols by auto. destruct (in_dec _ _ _) as [|N]; auto. exfalso. apply N. left; auto. }
    apply hdi_some in Hg. destruct Hg as (v & t & Et). pose proof (proj1 (NoDup_cons_iff _ _) mnd) as (Hnin & Hnd).
    set (dn := fst (nth c cols0 dcol)) in *.
    assert (Ex : nth c cols0 dcol = (dn, (g, v) :: t)). { unfold dn. rewrite <- Et. now destruct (nth c cols0 dcol). }
    set (rows := map whole cols ++ extra) in *.
    assert (Hrl : c < length rows) by (unfold rows; rewrite app_length, map_length, mk; lia).
    assert (Er : nth c rows [] = dn ++ (g, v) :: t). { unfold rows. rewrite nth_rows by lia. rewrite Ec, Ex. auto. }
    pose proof mchain as (Lli & _).
    unfold comp_body. rewrite (cur_pos_l ps ss cols extra F c) by (auto; lia). cbn [bind]. fold rows.
    rewrite Ec, Ex. cbn [fst snd whole]. unfold whole. cbn [fst snd]. rewrite app_length. cbn [length].
    rewrite mfm. cbn [ofrows indices vals psize ssize ind_start].
    rewrite (get_row _ fst rows c (length dn) Hrl) by (rewrite Er, app_length; simpl; lia). cbn [bind].
    rewrite Er, app_nth2, Nat.sub_diag by lia. cbn [nth fst].
    destruct (Nat.ltb_spec g def); [lia|].
    rewrite (set_row rows c dn g v t (g - def) Hrl Er). cbn [bind].
    rewrite (get_nth _ _ _ 0) by lia. cbn [bind]. rewrite set_ok by lia. cbn [bind].
    rewrite (get_nth _ _ _ None) by lia. cbn [bind].
    rewrite mstart, Ec, Ex by auto. cbn [fst].
    set (x' := (dn ++ [(g - def, v)], t) : col).
    assert (Eu : upd rows c (dn ++ (g - def, v) :: t) = upd rows c (whole x')).
    { unfold whole, x'. cbn [fst snd]. now rewrite <- app_assoc. }
    rewrite Eu. set (rows2 := upd rows c (whole x')).
    assert (Hr2 : c < length rows2) by (unfold rows2; rewrite upd_length; auto).
    assert (Er2 : nth c rows2 [] = dn ++ (g - def, v) :: t) by (unfold rows2; rewrite <- Eu; now rewrite nth_upd_eq).
    assert (Lx : length (whole x') = length (nth c rows [])).
    { unfold whole, x'. cbn [fst snd]. rewrite Er, !app_length. simpl. lia. }
    assert (Off2 : offs rows c = offs rows2 c) by (unfold rows2; now rewrite offs_upd).
    assert (Ev : map snd (concat rows) = map snd (concat rows2)).
    { unfold rows2. rewrite concat_upd by auto. rewrite (concat_split rows c Hrl) at 1. rewrite Er. unfold whole, x'. cbn [fst snd].
      rewrite !map_app. simpl. now rewrite <- !app_assoc. }
    rewrite Ev.
    assert (FM : mkCS ps ss (starts rows) (map fst (concat rows2)) (map snd (concat rows2)) = ofrows ps ss (map whole (upd cols c x') ++ extra)).
    { unfold ofrows. rewrite <- (upd_rows cols extra c x') by lia. fold rows. fold rows2.
      rewrite <- (starts_upd rows c (whole x') Hrl Lx). reflexivity. }
    rewrite FM.
    assert (G : forall li, length li = ss ->
      CH k (S g) ss li (hds (upd cols c x')) ->
      (forall h, chain (flist F) h pend -> chain li h pend) ->
      exists cols', MID ps ss k g (compc g def) cols0 extra pend
        (mkFac (ofrows ps ss (map whole (upd cols c x') ++ extra)) li (upd (fstart F) c (S (length dn)))) cols' /\
      nth c (flist F) None = nth c (flist F) None /\ length li = length (flist F) /\
      forall h, chain (flist F) h pend -> chain li h pend).
    { intros li LL HC Hch. exists (upd cols c x'). split; [|split; [auto|split; [lia|auto]]].
      split; cbn [fm flist fstart]; auto.
      - now rewrite upd_length.
      - now rewrite upd_length.
      - intros y Hy. rewrite !nth_upd by lia. destruct (Nat.eqb_spec y c) as [->|Hn]; [|apply mstart; auto].
        unfold x'. cbn [fst]. rewrite app_length. simpl. lia.
      - intros y Hy. apply mpend. right; auto.
      - intros y Hy. rewrite nth_upd by lia. destruct (Nat.eqb_spec y c) as [->|Hn].
        + destruct (in_dec _ _ _); [contradiction|]. rewrite Ex. unfold compc, x'. cbn [fst snd]. now rewrite Nat.eqb_refl.
        + rewrite mcols by auto. destruct (in_dec Nat.eq_dec y (c :: pend)) as [I|I], (in_dec Nat.eq_dec y pend) as [J|J]; auto.
          * destruct I; [congruence|contradiction].
          * exfalso. apply I. right; auto. }
    destruct t as [|[j w] t'].
    - replace (S (offs rows c + length dn) =? offs rows c + (length dn + 1)) with true by (symmetry; apply Nat.eqb_eq; lia).
      cbn [length negb]. replace (S (offs rows c + length dn) =? offs rows c + (length dn + 1)) with true by (symmetry; apply Nat.eqb_eq; lia).
      cbn [negb]. rewrite set_ok by lia. cbn [bind]. apply wp_ok. cbn [fst snd flist]. apply G.
      + now rewrite upd_length.
      + eapply CH_ext; [|apply (CH_drop k (S g) ss (flist F) (hds cols) c None); auto; try lia].
        * intros y Hy. cbv beta. rewrite hds_upd by lia. destruct (y =? c); auto.
        * intros r Hr. unfold hds in Hr. rewrite Ec, Ex in Hr. unfold hdi in Hr. simpl in Hr. inversion Hr. lia.
      + intros h Ch. apply (chain_frame (flist F)); auto. { now rewrite !upd_length. }
        intros y Hy. apply nth_upd_neq. intros ->. contradiction.
    - assert (Hj : g < j < lim).
      { specialize (HA c Hc). rewrite Et in HA. simpl in HA. destruct HA as (HA & _).
        specialize (HR c (j, w) Hc). rewrite Et in HR. specialize (HR ltac:(simpl; auto)). simpl in HR.
        specialize (HA j ltac:(simpl; auto)). lia. }
      cbn [length]. replace (S (offs rows c + length dn) =? offs rows c + (length dn + S (S (length t')))) with false by (symmetry; apply Nat.eqb_neq; lia).
      cbn [negb].
      replace (S (offs rows c + length dn)) with (offs rows2 c + (length dn + 1)) by lia.
      rewrite (get_row _ fst rows2 c (length dn + 1) Hr2) by (rewrite Er2, app_length; simpl; lia).
      cbn [bind]. rewrite Er2, app_nth2 by lia. replace (length dn + 1 - length dn) with 1 by lia. cbn [nth fst].
      rewrite (get_nth _ _ _ None) by lia. cbn [bind]. rewrite set_ok by lia. cbn [bind].
      rewrite set_ok by (rewrite upd_length; lia). cbn [bind]. apply wp_ok. cbn [fst snd flist]. apply G.
      + now rewrite !upd_length.
      + eapply CH_ext; [|apply (CH_link k (S g) ss (flist F) (hds cols) c j); auto; try lia].
        * intros y Hy. cbv beta. rewrite hds_upd by lia. destruct (y =? c); auto.
        * intros r Hr. unfold hds in Hr. rewrite Ec, Ex in Hr. unfold hdi in Hr. simpl in Hr. inversion Hr. lia.
      + intros h Ch. apply (chain_frame (flist F)); auto. { now rewrite !upd_length. }
        intros y Hy. assert (y < k) by (apply mpend; right; auto).
        rewrite nth_upd_neq by lia. apply nth_upd_neq. intros ->. contradiction.
  Qed.

  Lemma comp_walk : forall ps ss k g def lim (cols0 : list col) extra,
    k <= ps -> k <= g -> def <= g -> lim <= ss -> k <= ss ->
    (forall c e, c < k -> In e (snd (nth c cols0 dcol)) -> g <= fst e < lim) ->
    (forall c, c < k -> asc (map fst (snd (nth c cols0 dcol)))) ->
    forall pend fuel F cols h, length pend < fuel ->
    MID ps ss k g (compc g def) cols0 extra pend F cols -> chain (flist F) h pend ->
    wp (while_chain fuel (comp_body def) h F) (fun F' => exists cols', MID ps ss k g (compc g def) cols0 extra [] F' cols').
  Proof.
    intros ps ss k g def lim cols0 extra Hps Hkg Hgl Hls Hkss HR HA. induction pend; intros fuel F cols h Hf HM HC.
    - inversion HC; subst. destruct fuel; [simpl in Hf; lia|]. apply wp_ok. exists cols. auto.
    - inversion HC; subst. destruct fuel; [simpl in Hf; lia|]. cbn [while_chain]. apply wp_bind.
      eapply wp_conseq. { exact (comp_step ps ss k g def lim cols0 extra pend F cols _ Hps Hkg Hgl Hls Hkss HR HA HM). }
      intros [F' nx] (cols' & M' & E1 & E2 & E3). cbn [fst snd] in *. subst nx.
      eapply IHpend; eauto. simpl in Hf. lia.
  Qed.

  Lemma compress_l : forall ps ss k g def lim new F (cols : list col), Rep ps ss k g lim [new] F cols ->
    k < ps -> k < ss -> g < ss -> g = def + k ->
    asc (map fst new) -> (forall e, In e new -> S g <= fst e < lim) ->
    wp (update_compress k def F) (fun F' => Rep ps ss (S k) (S g) lim [] F' (map (compc g def) cols ++ [([], new)])).
  Proof.
    intros ps ss k g def lim new F cols [rfm rk rst rkps rklo rlim rstart rtail rdone rchain] Hk Hkss Hgs Eg HnA HnR.
    pose proof rchain as (Lli & CC). destruct (CC g ltac:(lia)) as (l & Cl & Nl & Il).
    unfold update_compress. rewrite <- Eg. wpb. apply wp_get with (d := None); [lia|]. wpb. fold (comp_body def).
    eapply wp_conseq.
    { eapply (comp_walk ps ss k g def lim cols [new]) with (pend := l) (cols := cols); auto; try lia.
      - intros c e Hc He. exact (proj2 (rtail c Hc) e He).
      - intros c Hc. exact (proj1 (rtail c Hc)).
      - apply (CH_fuel k g ss (flist F) (hds cols)); auto; try lia. intros c Hc. apply Il in Hc. tauto.
      - split; auto.
        + intros c Hc. apply Il in Hc. tauto.
        + intros c Hc. destruct (in_dec _ _ _) as [I|I]; auto. unfold compc.
          destruct (snd (nth c cols dcol)) as [|[i v] t] eqn:E; auto.
          destruct (Nat.eqb_spec i g) as [->|]; auto. exfalso. apply I. apply Il. split; auto.
          unfold hds, hdi. now rewrite E.
        + apply (CH_lo k g); auto. }
    intros F' (cols' & [mfm mk mk0 mst mstart mnd mpend mcols mchain]).
    assert (EC : cols' = map (compc g def) cols).
    { apply (nth_ext_d _ _ _ dcol). { rewrite map_length. lia. }
      intros c Hc. rewrite mcols by lia. destruct (in_dec _ _ _) as [[]|_].
      rewrite (nth_indep (map (compc g def) cols) dcol (compc g def dcol)) by (rewrite map_length; lia). now rewrite map_nth. }
    clear mcols. subst cols'.
    assert (NM : forall c, c < k -> nth c (map (compc g def) cols) dcol = compc g def (nth c cols dcol)).
    { intros c Hc. rewrite (nth_indep _ dcol (compc g def dcol)) by (rewrite map_length; lia). now rewrite map_nth. }
    set (cc := map (compc g def) cols) in *.
    assert (NA : forall c, c < k -> nth c (cc ++ [([], new)]) dcol = compc g def (nth c cols dcol)).
    { intros c Hc. rewrite app_nth1 by lia. auto. }
    assert (NB : nth k (cc ++ [([], new)]) dcol = ([], new)).
    { rewrite app_nth2 by lia. rewrite mk, Nat.sub_diag. auto. }
    pose proof mchain as (Lli' & _).
    wpb. apply wp_set; [lia|]. wpb. apply wp_set; [lia|].
    rewrite mfm. cbn [ofrows ind_start indices].
    rewrite !get_start by (rewrite app_length, map_length; simpl; lia). cbn [bind].
    rewrite offs_S by (rewrite app_length, map_length; simpl; lia).
    set (rows := map whole cc ++ [new]) in *.
    assert (Er : nth k rows [] = new).
    { unfold rows. rewrite app_nth2 by (rewrite map_length; lia). rewrite map_length, mk, Nat.sub_diag. auto. }
    rewrite Er.
    assert (ER : ofrows ps ss rows = ofrows ps ss (map whole (cc ++ [([], new)]) ++ [])).
    { rewrite app_nil_r, map_app. reflexivity. }
    assert (FIN : forall li, CH (S k) (S g) ss li (hds (cc ++ [([], new)])) ->
      Rep ps ss (S k) (S g) lim [] (mkFac (ofrows ps ss rows) li (upd (fstart F') k 0)) (cc ++ [([], new)])).
    { intros li HC. split; cbn [fm flist fstart]; auto; try lia.
      - rewrite app_length. simpl. lia.
      - now rewrite upd_length.
      - intros c Hc. rewrite nth_upd by lia. destruct (Nat.eqb_spec c k) as [->|Hn].
        + rewrite NB. auto.
        + rewrite mstart by lia. rewrite NA, NM by lia. auto.
      - intros c Hc. destruct (Nat.eq_dec c k) as [->|Hn].
        + rewrite NB. cbn [snd]. split; auto.
        + assert (Hc' : c < k) by lia. rewrite NA by auto. destruct (rtail c Hc') as (R1 & R2). unfold compc.
          destruct (snd (nth c cols dcol)) as [|[i v] t] eqn:E.
          { rewrite E. split; [simpl; auto|]. intros e []. }
          simpl in R1. destruct R1 as (R0 & R1). destruct (Nat.eqb_spec i g) as [->|Hng].
          * cbn [snd]. split; auto. intros e He. specialize (R2 e (or_intror He)).
            specialize (R0 (fst e) (in_map fst _ _ He)). lia.
          * rewrite E. split; [simpl; auto|]. intros e He. pose proof (R2 e He).
            pose proof (R2 (i, v) (or_introl eq_refl)) as Q. simpl in Q.
            destruct He as [<-|He]; [simpl in *; lia|]. specialize (R0 (fst e) (in_map fst _ _ He)). lia.
      - intros c Hc. destruct (Nat.eq_dec c k) as [->|Hn].
        + rewrite NB. simpl. split; auto. intros e [].
        + assert (Hc' : c < k) by lia. rewrite NA by auto. destruct (rdone c Hc') as (R1 & R2). unfold compc.
          destruct (snd (nth c cols dcol)) as [|[i v] t] eqn:E.
          { split; auto. intros e He. specialize (R2 e He). lia. }
          destruct (Nat.eqb_spec i g) as [->|Hng].
          * cbn [fst]. rewrite map_app. split.
            -- apply asc_app. split; [auto|]. split; [simpl; split; auto; intros y []|].
               intros x y Hx Hy. simpl in Hy. destruct Hy as [<-|[]].
               apply in_map_iff in Hx. destruct Hx as (e & <- & He). specialize (R2 e He). lia.
            -- intros e He. apply in_app_or in He. destruct He as [He|[<-|[]]]; [|simpl; lia].
               specialize (R2 e He). lia.
          * split; auto. intros e He. specialize (R2 e He). lia. }
    assert (CHS : CH (S k) (S g) ss (upd (flist F') k None) (fun x => if x =? k then None else hds cc x)).
    { apply CH_S_none. apply CH_low; auto. lia. }
    assert (HH : forall y, y < S k -> hds (cc ++ [([], new)]) y = if y =? k then hdi ([], new) else hds cc y).
    { intros y Hy. unfold hds. destruct (Nat.eqb_spec y k) as [->|Hn]; [now rewrite NB|]. now rewrite app_nth1 by lia. }
    destruct new as [|[j w] new'].
    - replace (offs rows k + length [] =? offs rows k) with true by (symmetry; apply Nat.eqb_eq; simpl; lia).
      cbn [bind]. apply wp_ok. apply FIN. eapply CH_ext; [|exact CHS]. intros y Hy. rewrite HH by auto.
      destruct (y =? k); auto.
    - replace (offs rows k + length ((j, w) :: new') =? offs rows k) with false by (symmetry; apply Nat.eqb_neq; simpl; lia).
      assert (Hj : S g <= j < lim) by (apply (HnR (j, w)); simpl; auto).
      rewrite <- (Nat.add_0_r (offs rows k)). rewrite (get_row _ fst rows k 0) by (rewrite ?Er; unfold rows; rewrite ?app_length, ?map_length; simpl; lia).
      rewrite Er. cbn [bind nth fst].
      set (li := upd (flist F') k None) in *.
      assert (Ll : length li = ss) by (unfold li; now rewrite upd_length).
      rewrite (get_nth _ _ _ None) by lia. cbn [bind].
      assert (EE : (match nth j li None with Some _ => set li k (nth j li None) | None => Ok li end) = Ok (upd li k (nth j li None))).
      { destruct (nth j li None) eqn:E. { apply set_ok. lia. } f_equal. unfold li. now rewrite upd_upd. }
      rewrite EE. cbn [bind]. rewrite set_ok by (rewrite upd_length; lia). cbn [bind]. apply wp_ok. apply FIN.
      eapply CH_ext; [|apply (CH_link (S k) (S g) ss li _ k j CHS); try lia].
      + intros y Hy. cbv beta. rewrite HH by auto. destruct (y =? k); auto.
      + intros r Hr. rewrite Nat.eqb_refl in Hr. discriminate.
  Qed.
End R.
