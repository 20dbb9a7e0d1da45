(** * FactorProofs2: one level. *)
From Coq Require Import List Arith Lia Bool Permutation Ring.
From Verif Require Import Base Scalar Spec CSModel CSSpec CSProofs ConvModel ConvSpec BucketProofs ConvProofs ConvProofs2
  ConvProofs3 ConvProofs4 Mag VecModel VecSpec VecProofs PruneModel CroutModel CroutSpec CroutProofs3 CroutProofs9 CroutProofs11
  SchurModel SchurSpec SchurProofs3 PrecModel PrecSpec LevelMath LinAlg PrecProofs FactorModel FactorSpec FactorMath PropConv PropVec PropCrout PropSchur FactorProofs1.
Import ListNotations.

(** The unset blocks of an empty leading part, with a start array. *)
Definition fixP {O} (P : Prec O) : Prec O :=
  if pm P =? 0 then
    mkPrec (pm P) (pn P) (mkCS 0 0 [0] [] []) (pd P) (mkCS 0 0 [0] [] []) (pE P) (pF P) (ps P) (pt P) (pp P) (pp_inv P) (pq P) (pq_inv P) (pdense P) (psymm P)
  else P.
Definition fix_ok {O} (P : Prec O) : Prop := pm P = 0 -> pL P = mkCS 0 0 [] [] [] /\ pU P = mkCS 0 0 [] [] [].

Section Fix.
  Variable O : Ops.
  Lemma fix_m : forall P : Prec O, pm (fixP P) = pm P. Proof. intros. unfold fixP. destruct (pm P =? 0) eqn:E; auto. Qed.
  Lemma fix_n : forall P : Prec O, pn (fixP P) = pn P. Proof. intros. unfold fixP. destruct (pm P =? 0) eqn:E; auto. Qed.
  Lemma fix_dense : forall P : Prec O, pdense (fixP P) = pdense P. Proof. intros. unfold fixP. destruct (pm P =? 0) eqn:E; auto. Qed.
  Lemma fix_last : forall P : Prec O, is_last_level O (fixP P) = is_last_level O P.
  Proof. intros. unfold fixP. destruct (pm P =? 0) eqn:E; auto. Qed.
  Lemma fix_work : forall l : list (Prec O), compute_prec_work_space O (map fixP l) = compute_prec_work_space O l.
  Proof. induction l; auto. cbn [map]. rewrite !cws_cons, IHl, fix_n. auto. Qed.


  Lemma bind_cong : forall A B (a b : res A) (f g : A -> res B), a = b -> (forall x, f x = g x) -> bind a f = bind b g.
  Proof. intros. subst b. destruct a; cbn [bind]; auto. Qed.
End Fix.
Ltac cong IH := intros; cbv zeta;
  first
  [ match goal with |- bind _ _ = bind _ _ => apply bind_cong; [cong IH|let x := fresh in intros x; cong IH] end
  | match goal with |- (match ?p with (_, _) => _ end) = (match ?p with (_, _) => _ end) => destruct p; cong IH end
  | match goal with |- (if ?c then _ else _) = (if ?c' then _ else _) => change c' with c; destruct c; cong IH end
  | apply IH; assumption
  | reflexivity ].
Section Fix2.
  Variable O : Ops.
  Lemma fix_solve : forall (l : list (Prec O)) b ld y w, Forall fix_ok l -> prec_solve O (map fixP l) b ld y w = prec_solve O l b ld y w.
  Proof.
    induction l as [|P l IH]; intros b ld y w HF; auto. inversion HF as [|? ? F1 F2]. subst. cbn [map]. unfold fixP at 1.
    destruct (Nat.eqb_spec (pm P) 0) as [E|E].
    - destruct (F1 E) as (EL & EU). destruct P as [m_ n_ L_ d_ U_ E_ F_ s_ t_ p_ pi_ q_ qi_ D_ S_]. cbn [pL pU pm] in EL, EU. subst. cbn [prec_solve pm pn pL pU pd pE pF ps pt pp pp_inv pq pq_inv]. cong IH.
    - cbn [prec_solve]. cong IH.
  Qed.
  Lemma fix_solve_tran : forall (l : list (Prec O)) b ld y w, Forall fix_ok l -> prec_solve_tran O (map fixP l) b ld y w = prec_solve_tran O l b ld y w.
  Proof.
    induction l as [|P l IH]; intros b ld y w HF; auto. inversion HF as [|? ? F1 F2]. subst. cbn [map]. unfold fixP at 1.
    destruct (Nat.eqb_spec (pm P) 0) as [E|E].
    - destruct (F1 E) as (EL & EU). destruct P as [m_ n_ L_ d_ U_ E_ F_ s_ t_ p_ pi_ q_ qi_ D_ S_]. cbn [pL pU pm] in EL, EU. subst. cbn [prec_solve_tran pm pn pL pU pd pE pF ps pt pp pp_inv pq pq_inv]. cong IH.
    - cbn [prec_solve_tran]. cong IH.
  Qed.
  Lemma fix_prod : forall (l : list (Prec O)) b ld y w, Forall fix_ok l -> prec_prod O (map fixP l) b ld y w = prec_prod O l b ld y w.
  Proof.
    induction l as [|P l IH]; intros b ld y w HF; auto. inversion HF as [|? ? F1 F2]. subst. cbn [map]. unfold fixP at 1.
    destruct (Nat.eqb_spec (pm P) 0) as [E|E].
    - destruct (F1 E) as (EL & EU). destruct P as [m_ n_ L_ d_ U_ E_ F_ s_ t_ p_ pi_ q_ qi_ D_ S_]. cbn [pL pU pm] in EL, EU. subst. cbn [prec_prod pm pn pL pU pd pE pF ps pt pp pp_inv pq pq_inv]. cong IH.
    - cbn [prec_prod]. cong IH.
  Qed.
  Lemma fix_prod_tran : forall (l : list (Prec O)) b ld y w, Forall fix_ok l -> prec_prod_tran O (map fixP l) b ld y w = prec_prod_tran O l b ld y w.
  Proof.
    induction l as [|P l IH]; intros b ld y w HF; auto. inversion HF as [|? ? F1 F2]. subst. cbn [map]. unfold fixP at 1.
    destruct (Nat.eqb_spec (pm P) 0) as [E|E].
    - destruct (F1 E) as (EL & EU). destruct P as [m_ n_ L_ d_ U_ E_ F_ s_ t_ p_ pi_ q_ qi_ D_ S_]. cbn [pL pU pm] in EL, EU. subst. cbn [prec_prod_tran pm pn pL pU pd pE pF ps pt pp pp_inv pq pq_inv]. cong IH.
    - cbn [prec_prod_tran]. cong IH.
  Qed.
End Fix2.
