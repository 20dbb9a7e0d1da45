(** * PropOpt: control parameters (C31, C32). *)
From Coq Require Import List ZArith String Bool Lia.
From Verif Require Import Base OptModel OptSpec.
Import ListNotations.
Open Scope string_scope.

(** C31. [set_option_attr(name, v, opt)] succeeds exactly for the member names;
    then the member of that name holds [v] (converted to its type) and every
    other member is unchanged; on failure nothing changes. *)
Theorem C31_set_option_attr : forall (F : DOps) (name : string) (v : oval F) (o : Opts F) (failed : bool) (o' : Opts F),
  set_option_attr name v o = (failed, o') ->
  (failed = false <-> In name (map fst (@members F))) /\
  (failed = true -> o' = o) /\
  (forall name' m, In (name', m) members ->
     read_member m o' = if String.eqb name' name then convert m v else read_member m o).
Proof.
  intros F name v o failed o' H. unfold set_option_attr in H.
  destruct (map_at option_tag2pos name) as [pos|] eqn:E.
  - inversion H; subst failed o'; clear H.
    assert (X : In (name, pos) option_tag2pos).
    { clear -E. revert E. generalize option_tag2pos. induction l as [|[k p] l IH]; simpl; [discriminate|].
      destruct (String.eqb_spec name k); intros E; [left; congruence|right; auto]. }
    destruct o. simpl in X.
    repeat destruct X as [X|X]; try contradiction; inversion X; subst; clear X E;
      (split; [split; [intros _; simpl; tauto|auto]|split; [discriminate|]];
       intros name' m Hin; simpl in Hin;
       repeat destruct Hin as [Hin|Hin]; try contradiction; inversion Hin; subst; reflexivity).
  - inversion H; subst failed o'; clear H. split; [|split; [auto|]].
    + split; [discriminate|]. intros Hin. exfalso. simpl in Hin.
      repeat destruct Hin as [Hin|Hin]; try contradiction; subst; discriminate.
    + intros name' m Hin. destruct (String.eqb_spec name' name); auto. subst. exfalso.
      apply (in_map fst) in Hin. simpl in Hin.
      repeat destruct Hin as [Hin|Hin]; try contradiction; subst; discriminate.
Qed.
Print Assumptions C31_set_option_attr.

(** Any history of setter calls: each member holds the value of the last call
    with its name, or its initial value. *)
Theorem C31_history : forall (F : DOps) (calls : list (string * oval F)) (o : Opts F) name m,
  In (name, m) members ->
  read_member m (fold_left (fun o c => snd (set_option_attr (fst c) (snd c) o)) calls o) =
  match last_set name calls with Some v => convert m v | None => read_member m o end.
Proof.
  intros F calls. induction calls as [|[k v] t IH]; intros o name m Hin; auto.
  cbn [fold_left fst snd last_set]. rewrite (IH _ name m Hin).
  destruct (last_set name t); auto.
  destruct (set_option_attr k v o) as [b o'] eqn:E.
  destruct (C31_set_option_attr F k v o b o' E) as (_ & _ & H). cbn [snd]. rewrite (H name m Hin). now destruct (String.eqb name k).
Qed.
Print Assumptions C31_history.

(** The stream reader: with enough tokens it reads the first 27 into the 27
    members other than [pivot], in declaration order, and leaves [pivot] alone. *)
Theorem C31_stream_partial : forall (F : DOps) (toks : list (oval F)) (o : Opts F),
  27 <= List.length toks ->
  exists o', read_options toks o = Ok (o', skipn 27 toks) /\
    pivot o' = pivot o /\
    forall i name m, nth_error (@members F) i = Some (name, m) -> name <> "pivot" ->
      read_member m o' = convert m (nth (if Nat.ltb i 21 then i else i - 1) toks (VI 0)).
Proof.
  intros F toks o H.
  do 27 (destruct toks as [|? toks]; [simpl in H; lia|]).
  destruct o. eexists. split; [reflexivity|]. split; [reflexivity|].
  intros i name m Hi Hn.
  do 28 (destruct i as [|i]; [simpl in Hi; inversion Hi; subst; first [contradiction (Hn eq_refl) | reflexivity]|]).
  destruct i; discriminate.
Qed.
Print Assumptions C31_stream_partial.

Definition DZ : DOps :=
  mkDOps Z (fun z => z) (fun z => z) Z.mul (fun a b => if (b =? 0)%Z then 0 else a / b)%Z Z.pow Z.min Z.max.
Definition oz : Opts DZ :=
  (@mkOpts DZ 1 2 3 3 10 10 1 10 2 (-1) 1 1 2 0 1 0 (-2) 0 1 0 0 2 1 1000 0 0 1 2000)%Z.
Definition toks28 : list (oval DZ) := map (fun z => @VI DZ z) (map Z.of_nat (seq 100 28)).

(** "The stream reader fills every field" fails: 28 tokens, one per member in
    declaration order; [pivot] is not read and the following members receive
    their predecessor's token. *)
Theorem C31_stream_refuted :
  exists (toks : list (oval DZ)) o' rest, List.length toks = 28 /\ read_options toks oz = Ok (o', rest) /\
    pivot o' <> toZ (nth 21 toks (VI 0)) /\ gamma o' = toZ (nth 21 toks (VI 0)) /\
    dense_thres o' = toZ (nth 26 toks (VI 0)) /\ List.length rest = 1.
Proof.
  exists toks28. eexists. eexists. split; [reflexivity|]. split; [vm_compute; reflexivity|].
  repeat split; vm_compute; try reflexivity. discriminate.
Qed.
Print Assumptions C31_stream_refuted.

(** [enable_verbose] adds the flag bits (or clears all for a flag <= 0) and
    changes no other member. *)
Theorem C31_enable_verbose : forall (F : DOps) flag (o : Opts F),
  (forall b, (0 <= b)%Z -> (0 < flag)%Z ->
     Z.testbit (verbose (enable_verbose flag o)) b = Z.testbit (verbose o) b || Z.testbit flag b) /\
  ((flag <= 0)%Z -> verbose (enable_verbose flag o) = 0%Z) /\
  (forall name m, In (name, m) members -> name <> "verbose" -> read_member m (enable_verbose flag o) = read_member m o).
Proof.
  intros F flag o. unfold enable_verbose. destruct o. split; [|split].
  - intros b Hb Hf. apply Z.ltb_lt in Hf. rewrite Hf. simpl. apply Z.lor_spec.
  - intros Hf. apply Z.ltb_ge in Hf. rewrite Hf. reflexivity.
  - intros name m Hin Hn. simpl in Hin.
    destruct (0 <? flag)%Z; repeat destruct Hin as [Hin|Hin]; try contradiction; inversion Hin; subst;
      first [contradiction (Hn eq_refl) | reflexivity].
Qed.
Print Assumptions C31_enable_verbose.

(** C32. What every level actually uses: the condition thresholds and growth
    factors are the refined ones of the same name, but the drop tolerance used
    for L is the refined [tau_U] and the one used for U is the refined [tau_L]. *)
Theorem C32_level_parameters_partial : forall (F : DOps) (o : Opts F) (lvl : Z),
  let P := level_pars o lvl in
  fp_kappa_d P = refined_kappa o lvl (kappa_d o) /\
  fp_kappa P = refined_kappa o lvl (kappa o) /\
  fp_alpha_L P = refined_alpha o lvl (alpha_L o) /\
  fp_alpha_U P = refined_alpha o lvl (alpha_U o) /\
  fp_tau_L P = refined_tau o lvl (tau_U o) /\
  fp_tau_U P = refined_tau o lvl (tau_L o) /\
  (tau_L o = tau_U o -> fp_tau_L P = refined_tau o lvl (tau_L o) /\ fp_tau_U P = refined_tau o lvl (tau_U o)).
Proof.
  intros F o lvl. unfold level_pars, determine_fac_pars, refined_kappa, refined_alpha, refined_tau.
  destruct (rf_par o =? 0)%Z; cbn [negb].
  - simpl. repeat split; auto; intros; congruence.
  - rewrite Z.leb_antisym. destruct (2 <? lvl)%Z; simpl; repeat split; intros; congruence.
Qed.
Print Assumptions C32_level_parameters_partial.

(** With pivoting the growth factors are four times larger, the rest is the same. *)
Theorem C32_pivot_parameters_partial : forall (F : DOps) (o : Opts F) (lvl : Z),
  let P := pivot_level_pars o lvl in
  let P' := level_pars o lvl in
  fp_kappa_d P = fp_kappa_d P' /\ fp_kappa P = fp_kappa P' /\ fp_tau_L P = fp_tau_L P' /\ fp_tau_U P = fp_tau_U P' /\
  fp_alpha_L P = dmul F (refined_alpha o lvl (alpha_L o)) (d_of_int F 4) /\
  fp_alpha_U P = dmul F (refined_alpha o lvl (alpha_U o)) (d_of_int F 4).
Proof.
  intros F o lvl. unfold pivot_level_pars, level_pars, determine_fac_pars, refined_alpha.
  destruct (rf_par o =? 0)%Z; cbn [negb]; [simpl; auto 10|].
  rewrite Z.leb_antisym. destruct (2 <? lvl)%Z; simpl; auto 10.
Qed.
Print Assumptions C32_pivot_parameters_partial.

(** C32 is false: [tau_L] does not reach L when the two tolerances differ,
    already on level 1, with and without refinement. *)
Theorem C32_tau_swapped_refuted :
  exists o : Opts DZ, fp_tau_L (level_pars o 1) <> refined_tau o 1 (tau_L o) /\
    fp_tau_U (level_pars o 1) <> refined_tau o 1 (tau_U o) /\ rf_par o = 1%Z.
Proof. exists oz. vm_compute. repeat split; discriminate. Qed.
Print Assumptions C32_tau_swapped_refuted.
