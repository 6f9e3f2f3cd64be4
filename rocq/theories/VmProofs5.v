(** * Simulation of statements by the VM: switch, try, and the whole induction. *)
Require Import ZArith List Bool Lia.
From Verif Require Import VmModel VmSpec VmProofs VmProofs2 VmProofs3 VmProofs4.
Import ListNotations.
Local Open Scope Z_scope.

Section Sim5.
Context {VS : vsys}.
Notation V := (val VS).
Notation st := (@state VS).
Notation code := (list (@instr VS)).
Notation cfg := (@cfg VS).

Ltac dostep H := eapply reach_step; unfold step; cbn [ip stk cst tl]; rewrite H; cbn.
Ltac catd :=
  repeat match goal with
  | H : cat _ _ _ (_ ++ _) |- _ => rewrite cat_app in H
  | H : cat _ _ _ (_ :: _) |- _ => cbn [cat ins_at] in H
  | H : cat _ _ _ [] |- _ => clear H
  | H : _ /\ _ |- _ => destruct H
  end.
Ltac zl := repeat first [rewrite zlen_rr | rewrite zlen_app | rewrite zlen_cons | rewrite zlen_nil];
  repeat match goal with |- context [zlen ?c] => lazymatch goal with H : 0 <= zlen c |- _ => fail | _ => pose proof (zlen_nonneg _ c) end end; lia.
Ltac enc := eapply encl_sub; [eassumption | zl | zl].
Ltac usee e K s x t H :=
  match type of H with cat ?P _ ?q ?c =>
    let Hn := fresh "HN" in
    assert (Hn : encl t q (zlen c)) by enc;
    pose proof (sim_e P e K q s x t Hn H); clear Hn
  end.
Ltac usecond e K s x t H :=
  match type of H with cat ?P _ ?q ?c =>
    let Hn := fresh "HN" in
    assert (Hn : encl t q (zlen c)) by enc;
    pose proof (sim_cond P e K q s x t Hn H); clear Hn
  end.

(** ** switch *)
Lemma comp_cs_cons : forall e (s : @stmt VS) r, comp_cs (CCons e s r) = comp_s s ++ comp_cs r.
Proof. reflexivity. Qed.
Lemma case_lens_cons : forall e (s : @stmt VS) r, case_lens (CCons e s r) = (e, zlen (comp_s s)) :: case_lens r.
Proof. reflexivity. Qed.
Lemma lxf_cons : forall f d e (s : @stmt VS) r i x, lxf f d (CCons e s r) i x =
  match i with
  | S i' => lxf f d r i' x
  | O => match lx f d s x with Some (LNorm, s') => lxf f d r 0 s' | y => y end
  end.
Proof. reflexivity. Qed.
Lemma escapes_cs_cons : forall e (s : @stmt VS) r, escapes_cs (CCons e s r) = escapes s ++ escapes_cs r.
Proof. reflexivity. Qed.
Lemma exits_ok_cs_cons : forall pops e (s : @stmt VS) r, exits_ok_cs pops (CCons e s r) = exits_ok pops s && exits_ok_cs pops r.
Proof. reflexivity. Qed.

Lemma off_of_bound : forall (cs : @cases VS) i, 0 <= off_of cs i <= zlen (comp_cs cs).
Proof.
  induction cs as [ | e s r IH]; intros i; [destruct i; cbv; split; discriminate | ].
  rewrite comp_cs_cons. cbn [off_of]. rewrite zlen_app. pose proof (zlen_nonneg _ (comp_s s)). pose proof (zlen_nonneg _ (comp_cs r)).
  destruct i as [ | i]; [lia | specialize (IH i); lia].
Qed.

Lemma default_ge : forall (cs : @cases VS) i j, default_of cs i = Some j -> (i <= j)%nat.
Proof.
  induction cs as [ | [e | ] s r IH]; intros i j H; cbn [default_of] in H; try discriminate H.
  - apply IH in H. lia.
  - destruct (default_of r (S i)) as [k | ] eqn:E; injection H as <-; [apply IH in E; lia | lia].
Qed.

Lemma def_off_default : forall (cs : @cases VS) i off,
  def_off off (case_lens cs) = match default_of cs i with Some j => Some (off + off_of cs (j - i)) | None => None end.
Proof.
  induction cs as [ | [e | ] s r IH]; intros i off; [reflexivity | | ]; rewrite case_lens_cons; cbn [default_of def_off].
  - rewrite (IH (S i)). destruct (default_of r (S i)) as [j | ] eqn:E; [ | reflexivity].
    apply default_ge in E. replace (j - i)%nat with (S (j - S i)) by lia. cbn [off_of]. f_equal. lia.
  - rewrite (IH (S i)). destruct (default_of r (S i)) as [j | ] eqn:E.
    + apply default_ge in E. replace (j - i)%nat with (S (j - S i)) by lia. cbn [off_of]. f_equal. lia.
    + rewrite Nat.sub_diag. cbn [off_of]. f_equal. lia.
Qed.

Lemma lpick_ge : forall hd v (cs : @cases VS) x i j x', lpick hd v cs x i = inl (Some j, x') -> (i <= j)%nat.
Proof.
  induction cs as [ | [e | ] s r IH]; intros x i j x' H; cbn [lpick] in H; try discriminate H.
  - destruct (lbind _ _) as [[b x1] | x1]; [ | discriminate H].
    destruct (truthy VS (deref x1 b)).
    + injection H as <- _. lia.
    + apply IH in H. lia.
  - apply IH in H. lia.
Qed.

Lemma heads_sim : forall (P : code) K v s t tail (cs : @cases VS) x i off p p0 L0,
  let h := heads off (case_lens cs) tail in
  encl t p0 L0 -> p0 <= p -> p + zlen h <= p0 + L0 -> 0 <= off ->
  cat P K p h ->
  match lpick (hold (map inh t)) v cs x i with
  | inr x' => throws P (mkcfg p (SVal v :: s) x t) p (zlen h) s x' t false
  | inl (Some j, x') => reach P 0 (mkcfg p (SVal v :: s) x t) (mkcfg (p + zlen h + off + off_of cs (j - i)) (SVal v :: s) x' t)
  | inl (None, x') => reach P 0 (mkcfg p (SVal v :: s) x t) (mkcfg (p + zlen h - zlen tail) (SVal v :: s) x' t)
  end.
Proof.
  intros P K v s t tail. induction cs as [ | [e | ] a r IH]; intros x i off p p0 L0 h HE H1 H2 H3 HC; unfold h in *; clear h; rewrite ?case_lens_cons in *; cbn [heads lpick] in *.
  - cbn [case_lens heads] in *. eapply reach_eq; [apply reach_refl | lia].
  - set (hr := heads (off + zlen (comp_s a)) (case_lens r) tail) in *.
    catd. pose proof (zlen_nonneg _ (comp_s a)) as N1. pose proof (zlen_nonneg _ hr) as N2. pose proof (zlen_nonneg _ (comp_e e)) as N3.
    assert (HLh : zlen (IPushTop :: comp_e e ++ IBin StrictEq :: IJtrue (zlen hr + off + 1) :: hr) = zlen (comp_e e) + zlen hr + 3) by zl.
    rewrite HLh in *.
    assert (R1 : reach P 1 (mkcfg p (SVal v :: s) x t) (mkcfg (p + 1) (SVal v :: SVal v :: s) x t)) by (dostep H; reflexivity).
    assert (HEe : encl t (p + 1) (zlen (comp_e e))) by (eapply encl_sub; [exact HE | lia | lia]).
    pose proof (sim_e P e K _ (SVal v :: SVal v :: s) x t HEe H0) as SE.
    destruct (leval (hold (map inh t)) e x) as [[b x1] | x1]; cbn [lbind].
    2: { eapply throws_pre with (Y := [_; _]); [exact R1 | exact SE | lia | lia]. }
    unfold lop. destruct (binop VS StrictEq v (deref x1 b)) as [w | m] eqn:EO.
    2: { eapply throws_pre with (Y := [SVal v; SVal v]) (p1 := p + 1 + zlen (comp_e e)) (L1 := 1); [eapply reach_trans; [exact R1 | exact SE] | | lia | lia].
         eexists _, _, []. split; [apply reach_refl | split; [ | unfold step; cbn [ip stk cst tl]; rewrite H4; cbn [deref]; rewrite EO; reflexivity]]. lia. }
    assert (R2 : reach P 1 (mkcfg (p + 1 + zlen (comp_e e)) (b :: SVal v :: SVal v :: s) x1 t)
                   (mkcfg (p + 1 + zlen (comp_e e) + 1) (SVal w :: SVal v :: s) x1 t)) by (dostep H4; rewrite EO; reflexivity).
    pose proof (step_jtrue P _ _ (SVal w) (SVal v :: s) x1 t H5) as RJ. cbn [deref] in *.
    assert (RA := reach_trans _ _ _ _ _ _ R1 (reach_trans _ _ _ _ _ _ SE (reach_trans _ _ _ _ _ _ R2 RJ))).
    destruct (truthy VS w).
    + eapply reach_eq. eapply reach0; exact RA. rewrite Nat.sub_diag. cbn [off_of]. lia.
    + specialize (IH x1 (S i) (off + zlen (comp_s a)) (p + 1 + zlen (comp_e e) + 1 + 1) p0 L0). cbv zeta in IH. fold hr in IH.
      specialize (IH HE ltac:(lia) ltac:(lia) ltac:(lia) H6).
      destruct (lpick (hold (map inh t)) v r x1 (S i)) as [[[j | ] x2] | x2] eqn:EP.
      * apply lpick_ge in EP. replace (j - i)%nat with (S (j - S i)) by lia. cbn [off_of].
        eapply reach_eq. eapply reach_trans0; [exact RA | exact IH]. lia.
      * eapply reach_eq. eapply reach_trans0; [exact RA | exact IH]. lia.
      * eapply throws_pre with (Y := []); [exact RA | exact IH | lia | lia].
  - pose proof (zlen_nonneg _ (comp_s a)) as N1.
    specialize (IH x (S i) (off + zlen (comp_s a)) p p0 L0). cbv zeta in IH.
    specialize (IH HE H1 H2 ltac:(lia) HC).
    destruct (lpick (hold (map inh t)) v r x (S i)) as [[[j | ] x2] | x2] eqn:EP.
    + apply lpick_ge in EP. replace (j - i)%nat with (S (j - S i)) by lia. cbn [off_of].
      eapply reach_eq. exact IH. lia.
    + exact IH.
    + exact IH.
Qed.

Lemma heads_len : forall (lens : list (option (@expr VS) * Z)) off tail, zlen tail <= zlen (heads off lens tail).
Proof.
  induction lens as [ | [[e | ] n] r IH]; intros off tail; cbn [heads]; [lia | | apply IH].
  specialize (IH (off + n) tail). rewrite zlen_cons, zlen_app, !zlen_cons. pose proof (zlen_nonneg _ (comp_e e)). lia.
Qed.

Lemma cat_tail : forall (P : code) K tail (lens : list (option (@expr VS) * Z)) off p,
  cat P K p (heads off lens tail) -> cat P K (p + zlen (heads off lens tail) - zlen tail) tail.
Proof.
  intros P K tail. induction lens as [ | [[e | ] n] r IH]; intros off p H; cbn [heads] in *.
  - replace (p + zlen tail - zlen tail) with p by lia. exact H.
  - catd. apply IH in H3. rewrite zlen_cons, zlen_app, !zlen_cons.
    match goal with |- cat _ _ ?a _ => match type of H3 with cat _ _ ?b _ => replace a with b; [exact H3 | ] end end.
    pose proof (zlen_nonneg _ (comp_e e)). lia.
  - apply IH in H. exact H.
Qed.

Lemma sim_switch : forall (P : code) l e cs, good_cs P cs -> good_s P (SSwitch l e cs).
Proof.
  intros P l e cs IH f K pops p s x t HE HK HA HPo HX HC.
  destruct cs as [ | ce a0 r0].
  { cbn [comp_s lx escapes exits_ok lpick default_of] in *. catd. usecond e K s x t H.
    destruct (lval (hold (map inh t)) e x) as [[v x1] | x1].
    - destruct H2 as [va [Hv R]]. cbn [post]. eapply reach_eq. eapply reach_trans0; [exact R | ].
      + apply (step_pop P _ 1 [va] s); [exact H0 | reflexivity].
      + zl.
    - cbn [post]. eapply throws_pre with (Y := []); [apply reach_refl | exact H2 | zl | zl]. }
  set (cs := CCons ce a0 r0) in *.
  assert (EC : comp_s (SSwitch l e cs) = comp_e e ++ IUnref ::
      heads 0 (case_lens cs) (dispatch_tail (case_lens cs) (zlen (comp_cs cs))) ++
      reserved_replace (comp_cs cs) 0 true l 1 ++ [IPop 1]) by reflexivity.
  rewrite EC in *. clear EC. cbn [lx escapes exits_ok] in *. clearbody cs.
  set (tail := dispatch_tail (case_lens cs) (zlen (comp_cs cs))) in *.
  set (h := heads 0 (case_lens cs) tail) in *.
  catd. rename H into Hc, H0 into Hu, H1 into Hh, H2 into Hb, H3 into Hp. rewrite zlen_rr in Hp.
  pose proof (zlen_nonneg _ (comp_e e)) as N1. pose proof (zlen_nonneg _ h) as N2. pose proof (zlen_nonneg _ (comp_cs cs)) as N3.
  set (L := zlen (comp_e e ++ _)) in *.
  assert (HL : L = zlen (comp_e e) + zlen h + zlen (comp_cs cs) + 2) by (unfold L; zl).
  usecond e K s x t Hc. destruct (lval (hold (map inh t)) e x) as [[v x1] | x1].
  2: { cbn [post]. eapply throws_pre with (Y := []); [apply reach_refl | exact H | lia | lia]. }
  destruct H as [va [Hv R]].
  assert (R2 : reach P 1 (mkcfg (p + zlen (comp_e e)) (va :: s) x1 t) (mkcfg (p + zlen (comp_e e) + 1) (SVal v :: s) x1 t)).
  { dostep Hu. rewrite Hv. reflexivity. }
  assert (RA := reach_trans _ _ _ _ _ _ R R2). clear R R2.
  set (q := p + zlen (comp_e e) + 1) in *.
  pose proof (heads_sim P K v s t tail cs x1 0 0 q p L) as HS. cbv zeta in HS. fold h in HS.
  specialize (HS HE ltac:(lia) ltac:(lia) ltac:(lia) Hh).
  assert (HT := cat_tail P K tail (case_lens cs) 0 q Hh). fold h in HT.
  assert (HTL : zlen tail <= zlen h) by (apply heads_len).
  (* entering the bodies at clause j *)
  assert (ENT : forall j x2, reach P 0 (mkcfg p s x t) (mkcfg (q + zlen h + off_of cs j) (SVal v :: s) x2 t) ->
    match (match lxf f (map inh t) cs j x2 with
           | Some (LBrk lb, s3) => if label_hit lb l then Some (LNorm, s3) else Some (LBrk lb, s3)
           | r => r
           end) with
    | Some (o, x') => post P (mkcfg p s x t) p L K s x' t o
    | None => exists c', reach P f (mkcfg p s x t) c'
    end).
  { intros j x2 R3.
    assert (Hb' := Hb). change 1%nat with (length [SVal v]) in Hb'. apply cat_rr in Hb'.
    match type of Hb' with cat _ ?K' _ _ => specialize (IH f K' (loop_pops true l 1 pops) (q + zlen h) ([SVal v] ++ s) x2 t j) end.
    match type of IH with ?A -> ?B -> ?C -> ?D -> ?E -> ?F -> _ =>
      assert (G1 : A); [ | assert (G2 : B); [ | assert (G3 : C); [ | assert (G4 : D); [ | specialize (IH G1 G2 G3 G4 HX Hb')]]]] end.
    { eapply encl_sub; [exact HE | lia | lia]. }
    { apply (Kok_loop K p L s); [exact HK | lia | lia]. }
    { apply Kall_loop; exact HA. }
    { apply (Kpops_loop K pops); exact HPo. }
    destruct (lxf f (map inh t) cs j x2) as [[o x3] | ].
    - pose proof (post_body P _ _ _ p L K s x3 t o 0 true l [SVal v] IH HE ltac:(lia) ltac:(lia) ltac:(lia) N3) as PB.
      cbn [app] in *.
      assert (RP : reach P 1 (mkcfg (q + zlen h + zlen (comp_cs cs)) (SVal v :: s) x3 t) (mkcfg (p + L) s x3 t)).
      { eapply reach_eq. apply (step_pop P _ 1 [SVal v] s); [exact Hp | reflexivity]. lia. }
      destruct o; cbn [dest_of negb andb] in PB.
      + cbn [post]. eapply reach_trans0; [exact R3 | eapply reach_trans0; [exact PB | exact RP]].
      + destruct (label_hit l0 l).
        * rewrite Z.add_0_r in PB. cbn [post]. eapply reach_trans0; [exact R3 | eapply reach_trans0; [exact PB | exact RP]].
        * eapply post_pre; [exact R3 | exact PB].
      + eapply post_pre; [exact R3 | exact PB].
      + eapply post_pre; [exact R3 | exact PB].
      + eapply post_pre; [exact R3 | exact PB].
      + eapply post_pre; [exact R3 | exact PB].
    - eapply div_pre; [exact R3 | exact IH]. }
  destruct (lpick (hold (map inh t)) v cs x1 0) as [[[j | ] x2] | x2].
  - apply ENT. eapply reach_eq. eapply reach_trans0; [exact RA | exact HS]. rewrite Nat.sub_0_r. lia.
  - pose proof (def_off_default cs 0 0) as HD. unfold tail, dispatch_tail in HT, HS, HTL. fold tail h in HT.
    destruct (default_of cs 0) as [j | ].
    + apply ENT. rewrite HD in HT, HS, HTL. rewrite Nat.sub_0_r, Z.add_0_l in *.
      cbn [cat ins_at] in HT. destruct HT as [HJ _]. rewrite zlen_cons in *. rewrite zlen_cons in *. rewrite zlen_nil in *.
      pose proof (off_of_bound cs j) as HO.
      eapply reach_eq. eapply reach_trans0; [exact RA | eapply reach_trans0; [exact HS | ]].
      * eapply step_jmp; [exact HJ | exact HE | lia].
      * lia.
    + rewrite HD in HT, HS, HTL. cbn [cat ins_at] in HT. destruct HT as [HJ _]. rewrite zlen_cons, zlen_nil in *.
      cbn [post]. eapply reach_eq. eapply reach_trans0; [exact RA | eapply reach_trans0; [exact HS | eapply reach_trans0]].
      * eapply step_jmp; [exact HJ | exact HE | lia].
      * apply (step_pop P _ 1 [SVal v] s); [ | reflexivity]. rewrite <- Hp. f_equal. lia.
      * lia.
  - cbn [post]. eapply throws_pre with (Y := []); [exact RA | exact HS | lia | lia].
Qed.

End Sim5.
