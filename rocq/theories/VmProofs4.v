(** * Simulation of statements by the VM: the induction. *)
Require Import ZArith List Bool Lia.
From Verif Require Import VmModel VmSpec VmProofs VmProofs2 VmProofs3.
Import ListNotations.
Local Open Scope Z_scope.

Section Sim4.
Context {VS : vsys}.
Notation V := (val VS).
Notation st := (@state VS).
Notation code := (list (@instr VS)).
Notation cfg := (@cfg VS).

Ltac dostep H := eapply reach_step; unfold step; cbn [ip stk cst tl]; rewrite H; cbn.
Ltac catd :=
  repeat match goal with
  | H : cat _ _ _ (_ ++ _) |- _ => rewrite cat_app in H
  | H : cat _ _ _ (_ :: _) |- _ => cbn [cat ins_at] in H
  | H : cat _ _ _ [] |- _ => clear H
  | H : _ /\ _ |- _ => destruct H
  end.
Ltac zl := repeat first [rewrite zlen_rr | rewrite zlen_app | rewrite zlen_cons | rewrite zlen_nil];
  repeat match goal with |- context [zlen ?c] => lazymatch goal with H : 0 <= zlen c |- _ => fail | _ => pose proof (zlen_nonneg _ c) end end; lia.

Definition good_s (P : code) (a : @stmt VS) : Prop :=
  forall f K pops p s x t, encl t p (zlen (comp_s a)) -> Kok K p (zlen (comp_s a)) s ->
  Kall K (escapes a) -> Kpops K pops -> exits_ok pops a = true -> cat P K p (comp_s a) ->
  match lx f (map inh t) a x with
  | Some (o, x') => post P (mkcfg p s x t) p (zlen (comp_s a)) K s x' t o
  | None => exists c', reach P f (mkcfg p s x t) c'
  end.

Fixpoint off_of (cs : @cases VS) (i : nat) : Z :=
  match cs, i with
  | CCons _ s r, S i' => zlen (comp_s s) + off_of r i'
  | _, _ => 0
  end.
Definition good_cs (P : code) (cs : @cases VS) : Prop :=
  forall f K pops p s x t i, encl t p (zlen (comp_cs cs)) -> Kok K p (zlen (comp_cs cs)) s ->
  Kall K (escapes_cs cs) -> Kpops K pops -> exits_ok_cs pops cs = true -> cat P K p (comp_cs cs) ->
  match lxf f (map inh t) cs i x with
  | Some (o, x') => post P (mkcfg (p + off_of cs i) s x t) p (zlen (comp_cs cs)) K s x' t o
  | None => exists c', reach P f (mkcfg (p + off_of cs i) s x t) c'
  end.

(* an expression used as a condition: its value, and one more step that looks at it *)
Lemma sim_cond : forall (P : code) e K p s x t,
  encl t p (zlen (comp_e e)) -> cat P K p (comp_e e) ->
  match lval (hold (map inh t)) e x with
  | inl (v, x') => exists a, deref x' a = v /\ reach P 1 (mkcfg p s x t) (mkcfg (p + zlen (comp_e e)) (a :: s) x' t)
  | inr x' => throws P (mkcfg p s x t) p (zlen (comp_e e)) s x' t false
  end.
Proof.
  intros P e K p s x t HE HC. pose proof (sim_e P e K p s x t HE HC) as H. unfold lval.
  destruct (leval (hold (map inh t)) e x) as [[a x'] | x']; [exists a; auto | exact H].
Qed.

(* use a simulation fact about a part that may diverge or end abruptly *)
Lemma div_pre : forall (P : code) f m c0 c1, reach P m c0 c1 -> (exists c', reach P f c1 c') -> exists c', reach P f c0 c'.
Proof. intros P f m c0 c1 R [c' R2]. exists c'. eapply reach_weak; [eapply reach_trans; eauto | lia]. Qed.

Ltac enc := eapply encl_sub; [eassumption | zl | zl].
Ltac kok := eapply Kok_sub; [eassumption | zl].

Ltac usecond e K s x t H :=
  match type of H with cat ?P _ ?q ?c =>
    let Hn := fresh "HN" in
    assert (Hn : encl t q (zlen c)) by enc;
    pose proof (sim_cond P e K q s x t Hn H); clear Hn
  end.
Ltac usee e K s x t H :=
  match type of H with cat ?P _ ?q ?c =>
    let Hn := fresh "HN" in
    assert (Hn : encl t q (zlen c)) by enc;
    pose proof (sim_e P e K q s x t Hn H); clear Hn
  end.

Lemma step_jfalse : forall (P : code) p off a s x t, fetch P p = Some (IJfalse off) ->
  reach P 1 (mkcfg p (a :: s) x t) (mkcfg (if truthy VS (deref x a) then p + 1 else p + off) s x t).
Proof. intros. dostep H. destruct (truthy VS (deref x a)); reflexivity. Qed.

Lemma step_jtrue : forall (P : code) p off a s x t, fetch P p = Some (IJtrue off) ->
  reach P 1 (mkcfg p (a :: s) x t) (mkcfg (if truthy VS (deref x a) then p + off else p + 1) s x t).
Proof. intros. dostep H. destruct (truthy VS (deref x a)); reflexivity. Qed.

Lemma step_jmp : forall (P : code) p off s x t p0 L0, fetch P p = Some (IJmp off) ->
  encl t p0 L0 -> p0 <= p + off <= p0 + L0 ->
  reach P 1 (mkcfg p s x t) (mkcfg (p + off) s x t).
Proof. intros. dostep H. erewrite do_jump_in; [ | eassumption | lia]. do 2 f_equal. lia. Qed.

Lemma step_pop : forall (P : code) p n Y s x t, fetch P p = Some (IPop n) -> length Y = n ->
  reach P 1 (mkcfg p (Y ++ s) x t) (mkcfg (p + 1) s x t).
Proof.
  intros. eapply reach_step; unfold step; cbn [ip stk cst tl]. rewrite H.
  replace (Nat.leb n (length (Y ++ s))) with true by (symmetry; apply Nat.leb_le; rewrite app_length; lia).
  rewrite skipn_app, skipn_all2 by lia. subst n. rewrite Nat.sub_diag. reflexivity.
Qed.

Lemma zlen_comp_nonneg : forall (c : code), 0 <= zlen c. Proof. intros; apply zlen_nonneg. Qed.

(** ** A loop body *)
Lemma use_body : forall (P : code) a f K pops p L p1 Y s x1 t step l,
  good_s P a -> cat P K p1 (reserved_replace (comp_s a) step false l (length Y)) ->
  encl t p L -> Kok K p L s -> Kall K (filter (keep false l) (escapes a)) -> Kpops K pops ->
  exits_ok (loop_pops false l (length Y) pops) a = true ->
  p <= p1 -> p1 + zlen (comp_s a) + step <= p + L -> 0 <= step ->
  match lx f (map inh t) a x1 with
  | Some (o, x2) =>
      match dest_of false l o with
      | DEnd => reach P 0 (mkcfg p1 (Y ++ s) x1 t) (mkcfg (p1 + zlen (comp_s a)) (Y ++ s) x2 t)
      | DBreak => reach P 0 (mkcfg p1 (Y ++ s) x1 t) (mkcfg (p1 + zlen (comp_s a) + step) (Y ++ s) x2 t)
      | DOut o' => post P (mkcfg p1 (Y ++ s) x1 t) p L K s x2 t o'
      end
  | None => exists c', reach P f (mkcfg p1 (Y ++ s) x1 t) c'
  end.
Proof.
  intros P a f K pops p L p1 Y s x1 t step l IH Hb HE HK HA HPo HX H1 H2 H3.
  pose proof (zlen_nonneg _ (comp_s a)) as N.
  apply cat_rr in Hb.
  match type of Hb with cat _ ?K' _ _ => specialize (IH f K' (loop_pops false l (length Y) pops) p1 (Y ++ s) x1 t) end.
  match type of IH with ?A -> ?B -> ?C -> ?D -> ?E -> ?F -> _ =>
    assert (G1 : A); [ | assert (G2 : B); [ | assert (G3 : C); [ | assert (G4 : D); [ | specialize (IH G1 G2 G3 G4 HX Hb)]]]] end.
  { eapply encl_sub; [exact HE | lia | lia]. }
  { apply (Kok_loop K p L s); [exact HK | lia | lia]. }
  { apply Kall_loop; exact HA. }
  { apply Kpops_loop; exact HPo. }
  destruct (lx f (map inh t) a x1) as [[o x2] | ]; [ | exact IH].
  pose proof (post_body P _ _ _ p L K s x2 t o step false l Y IH HE H1 H2 H3 N) as PB. exact PB.
Qed.

(** ** while *)
Lemma sim_while : forall (P : code) l c a, good_s P a -> good_s P (SWhile l c a).
Proof.
  intros P l c a IH f K pops p s x t HE HK HA HPo HX HC.
  cbn [comp_s lx escapes exits_ok] in *. catd.
  rename H into Hc, H0 into Hj, H1 into Hb, H2 into Hm. rewrite zlen_rr in Hm.
  pose proof (zlen_nonneg _ (comp_e c)) as N1. pose proof (zlen_nonneg _ (comp_s a)) as N2.
  set (L := zlen (comp_e c ++ _)) in *.
  assert (HL : L = zlen (comp_e c) + zlen (comp_s a) + 2) by (unfold L; zl).
  match goal with |- match iterate f ?one x with _ => _ end =>
    pose proof (iter_sim st (@lout VS * st) P f one (fun x0 => mkcfg p s x0 t)
                 (fun c0 r => post P c0 p L K s (snd r) t (fst r))) as HI end.
  match type of HI with ?A -> ?B -> _ => assert (HA1 : A); [ | assert (HB1 : B); [ | specialize (HI HA1 HB1 f x)]] end.
  - intros. eapply post_pre; eauto.
  - intros x0. usecond c K s x0 t Hc. destruct (lval (hold (map inh t)) c x0) as [[v x1] | x1].
    + destruct H as [va [Hv R]]. pose proof (step_jfalse P _ _ va s x1 t Hj) as RJ. rewrite Hv in RJ.
      destruct (truthy VS v).
      * pose proof (use_body P a f K pops p L _ [] s x1 t 1 l IH Hb HE HK HA HPo HX ltac:(lia) ltac:(lia) ltac:(lia)) as UB.
        cbn [app] in UB.
        destruct (lx f (map inh t) a x1) as [[o x2] | ].
        { rewrite lafter_dest. destruct (dest_of false l o).
          - eapply reach_weak; [eapply reach_trans; [exact R | eapply reach_trans; [exact RJ | eapply reach_trans; [exact UB | ]]] | ].
            + eapply reach_eq. eapply step_jmp; [exact Hm | exact HE | lia]. lia.
            + lia.
          - cbn [fst snd post]. eapply reach_eq. eapply reach_trans0; [exact R | eapply reach_trans0; [exact RJ | exact UB]]. lia.
          - cbn [fst snd]. eapply post_pre; [exact R | eapply post_pre; [exact RJ | exact UB]]. }
        { eapply div_pre; [exact R | eapply div_pre; [exact RJ | exact UB]]. }
      * cbn [fst snd post]. eapply reach_eq. eapply reach_trans0; [exact R | exact RJ]. lia.
    + cbn [fst snd post]. eapply throws_pre with (Y := []); [apply reach_refl | exact H | lia | lia].
  - match type of HI with match ?r with _ => _ end => destruct r as [[o x'] | ] end.
    + exact HI.
    + rewrite Nat.min_id in HI. exact HI.
Qed.

(** ** do while *)
Lemma sim_do : forall (P : code) l a c, good_s P a -> good_s P (SDo l a c).
Proof.
  intros P l a c IH f K pops p s x t HE HK HA HPo HX HC.
  cbn [comp_s lx escapes exits_ok] in *. catd.
  rename H into Hb, H0 into Hc, H1 into Hj. rewrite zlen_rr in Hj, Hc.
  pose proof (zlen_nonneg _ (comp_e c)) as N1. pose proof (zlen_nonneg _ (comp_s a)) as N2.
  set (L := zlen (reserved_replace _ _ _ _ _ ++ _)) in *.
  assert (HL : L = zlen (comp_e c) + zlen (comp_s a) + 1) by (unfold L; zl).
  match goal with |- match iterate f ?one x with _ => _ end =>
    pose proof (iter_sim st (@lout VS * st) P f one (fun x0 => mkcfg p s x0 t)
                 (fun c0 r => post P c0 p L K s (snd r) t (fst r))) as HI end.
  match type of HI with ?A -> ?B -> _ => assert (HA1 : A); [ | assert (HB1 : B); [ | specialize (HI HA1 HB1 f x)]] end.
  - intros. eapply post_pre; eauto.
  - intros x0.
    pose proof (use_body P a f K pops p L _ [] s x0 t _ l IH Hb HE HK HA HPo HX ltac:(lia) ltac:(lia) ltac:(lia)) as UB.
    cbn [app] in UB.
    destruct (lx f (map inh t) a x0) as [[o x2] | ]; [ | exact UB].
    rewrite lafter_dest. destruct (dest_of false l o).
    + usecond c K s x2 t Hc. destruct (lval (hold (map inh t)) c x2) as [[v x3] | x3].
      * destruct H as [va [Hv R]]. pose proof (step_jtrue P _ _ va s x3 t Hj) as RJ. rewrite Hv in RJ.
        destruct (truthy VS v).
        { eapply reach_eq. eapply reach_weak; [eapply reach_trans; [exact UB | eapply reach_trans; [exact R | exact RJ]] | lia]. lia. }
        { cbn [fst snd post]. eapply reach_eq. eapply reach_trans0; [exact UB | eapply reach_trans0; [exact R | exact RJ]]. lia. }
      * cbn [fst snd post]. eapply throws_pre with (Y := []); [exact UB | exact H | lia | lia].
    + cbn [fst snd post]. eapply reach_eq. exact UB. lia.
    + exact UB.
  - match type of HI with match ?r with _ => _ end => destruct r as [[o x'] | ] end.
    + exact HI.
    + rewrite Nat.min_id in HI. exact HI.
Qed.

(** ** for *)
Lemma sim_lcond : forall (P : code) c K p s x t,
  let cc := match c with Some e => comp_e e | None => [IPush (vflag VS true)] end in
  encl t p (zlen cc) -> cat P K p cc ->
  match lcond (hold (map inh t)) c x with
  | inl (v, x') => exists a, deref x' a = v /\ reach P 1 (mkcfg p s x t) (mkcfg (p + zlen cc) (a :: s) x' t)
  | inr x' => throws P (mkcfg p s x t) p (zlen cc) s x' t false
  end.
Proof.
  intros P [e | ] K p s x t cc HE HC; unfold cc in *; cbn [lcond].
  - apply sim_cond with (K := K); auto.
  - catd. exists (SVal (vflag VS true)). split; [reflexivity | ]. eapply reach_eq. dostep H. reflexivity. zl.
Qed.

Lemma sim_lstep : forall (P : code) c K p s x t,
  let cc := match c with Some e => comp_e e ++ [IPop 1] | None => [INop] end in
  encl t p (zlen cc) -> cat P K p cc ->
  match lstep (hold (map inh t)) c x with
  | (true, x') => reach P 1 (mkcfg p s x t) (mkcfg (p + zlen cc) s x' t)
  | (false, x') => throws P (mkcfg p s x t) p (zlen cc) s x' t false
  end.
Proof.
  intros P [e | ] K p s x t cc HE HC; unfold cc in *; cbn [lstep].
  - catd. usee e K s x t H. destruct (leval (hold (map inh t)) e x) as [[a x'] | x'].
    + eapply reach_eq. eapply reach_weak; [eapply reach_trans; [exact H2 | ] | ].
      * apply (step_pop P _ 1 [a] s); [exact H0 | reflexivity].
      * lia.
      * zl.
    + eapply throws_pre with (Y := []); [apply reach_refl | exact H2 | zl | zl].
  - catd. eapply reach_eq. dostep H. reflexivity. zl.
Qed.

Lemma sim_for : forall (P : code) l i c stp a, good_s P i -> good_s P a -> good_s P (SFor l i c stp a).
Proof.
  intros P l i c stp a IHi IH f K pops p s x t HE HK HA HPo HX HC.
  cbn [comp_s lx escapes exits_ok] in *.
  set (cc := match c with Some e => comp_e e | None => [IPush (vflag VS true)] end) in *.
  set (sc := match stp with Some e => comp_e e ++ [IPop 1] | None => [INop] end) in *.
  catd. apply andb_true_iff in HX. destruct HX as [HX1 HX].
  apply Kall_app in HA. destruct HA as [HA0 HA].
  rename H into Hi, H0 into Hc, H1 into Hj, H2 into Hb, H3 into Hs, H4 into Hm. rewrite zlen_rr in Hm, Hs.
  pose proof (zlen_nonneg _ cc) as N1. pose proof (zlen_nonneg _ (comp_s a)) as N2.
  pose proof (zlen_nonneg _ sc) as N3. pose proof (zlen_nonneg _ (comp_s i)) as N4.
  set (L := zlen (comp_s i ++ _)) in *.
  assert (HL : L = zlen (comp_s i) + zlen cc + zlen (comp_s a) + zlen sc + 2) by (unfold L; zl).
  assert (HIi := IHi f K pops p s x t ltac:(eapply encl_sub; [exact HE | lia | lia]) ltac:(eapply Kok_sub; [exact HK | lia]) HA0 HPo HX1 Hi).
  destruct (lx f (map inh t) i x) as [[o x0] | ].
  2: { exact HIi. }
  destruct o; try (eapply post_sub; [exact HIi | congruence | lia | lia]).
  cbn [post] in HIi. set (q := p + zlen (comp_s i)) in *.
  match goal with |- match iterate f ?one x0 with _ => _ end =>
    pose proof (iter_sim st (@lout VS * st) P f one (fun x0 => mkcfg q s x0 t)
                 (fun c0 r => post P c0 p L K s (snd r) t (fst r))) as HI end.
  match type of HI with ?A -> ?B -> _ => assert (HA1 : A); [ | assert (HB1 : B); [ | specialize (HI HA1 HB1 f x0)]] end.
  - intros. eapply post_pre; eauto.
  - intros x1. pose proof (sim_lcond P c K q s x1 t) as HCd. cbv zeta in HCd. fold cc in HCd.
    specialize (HCd ltac:(eapply encl_sub; [exact HE | lia | lia]) Hc). destruct (lcond (hold (map inh t)) c x1) as [[v x2] | x2].
    + destruct HCd as [va [Hv R]]. pose proof (step_jfalse P _ _ va s x2 t Hj) as RJ. rewrite Hv in RJ.
      destruct (truthy VS v).
      * pose proof (use_body P a f K pops p L _ [] s x2 t _ l IH Hb HE HK HA HPo HX ltac:(lia) ltac:(lia) ltac:(lia)) as UB.
        cbn [app] in UB.
        destruct (lx f (map inh t) a x2) as [[o x3] | ].
        { rewrite lafter_dest. destruct (dest_of false l o).
          - match type of Hs with cat _ _ ?q2 _ => assert (HE2 : encl t q2 (zlen sc)) by (eapply encl_sub; [exact HE | lia | lia]) end.
            match type of Hs with cat _ _ ?q2 _ => pose proof (sim_lstep P stp K q2 s x3 t HE2 Hs) as HS end. cbv zeta in HS. fold sc in HS.
            destruct (lstep (hold (map inh t)) stp x3) as [[ | ] x4].
            + eapply reach_eq. eapply reach_weak; [eapply reach_trans; [exact R | eapply reach_trans; [exact RJ | eapply reach_trans; [exact UB | eapply reach_trans; [exact HS | ]]]] | ].
              * eapply step_jmp; [exact Hm | exact HE | lia].
              * lia.
              * lia.
            + cbn [fst snd post]. eapply throws_pre with (Y := []);
                [eapply reach_trans; [exact R | eapply reach_trans; [exact RJ | exact UB]] | exact HS | lia | lia].
          - cbn [fst snd post]. eapply reach_eq. eapply reach_trans0; [exact R | eapply reach_trans0; [exact RJ | exact UB]]. lia.
          - cbn [fst snd]. eapply post_pre; [exact R | eapply post_pre; [exact RJ | exact UB]]. }
        { eapply div_pre; [exact R | eapply div_pre; [exact RJ | exact UB]]. }
      * cbn [fst snd post]. eapply reach_eq. eapply reach_trans0; [exact R | exact RJ]. lia.
    + cbn [fst snd post]. eapply throws_pre with (Y := []); [apply reach_refl | exact HCd | lia | lia].
  - match type of HI with match ?r with _ => _ end => destruct r as [[o x'] | ] end.
    + cbn [fst snd] in HI. eapply post_pre; [exact HIi | exact HI].
    + rewrite Nat.min_id in HI. eapply div_pre; [exact HIi | exact HI].
Qed.

(** ** for in / for of *)
Lemma sim_forin : forall (P : code) l isof y e a, good_s P a -> good_s P (SForIn l isof y e a).
Proof.
  intros P l isof y e a IH f K pops p s x t HE HK HA HPo HX HC.
  cbn [comp_s lx escapes exits_ok] in *. catd.
  rename H into Hc, H0 into Hk, H1 into Hv, H2 into Hn, H3 into Hj, H4 into Hb, H5 into Hm, H6 into Hp.
  rewrite zlen_rr in Hm, Hp.
  pose proof (zlen_nonneg _ (comp_e e)) as N1. pose proof (zlen_nonneg _ (comp_s a)) as N2.
  set (L := zlen (comp_e e ++ _)) in *.
  assert (HL : L = zlen (comp_e e) + zlen (comp_s a) + 6) by (unfold L; zl).
  usecond e K s x t Hc. destruct (lval (hold (map inh t)) e x) as [[v x1] | x1].
  2: { cbn [post]. eapply throws_pre with (Y := []); [apply reach_refl | exact H | lia | lia]. }
  destruct H as [va [Hva R]].
  destruct (keysof VS isof v) as [ks | m] eqn:EK.
  2: { cbn [post]. eapply throws_pre with (Y := []) (p1 := p + zlen (comp_e e)) (L1 := 1); [exact R | | lia | lia].
       eexists _, (p + zlen (comp_e e)), [SVal v]. split; [apply reach_refl | split; [lia | ]].
       unfold step; cbn [ip stk cst tl]. rewrite Hk, Hva, EK. reflexivity. }
  assert (R2 : reach P 1 (mkcfg (p + zlen (comp_e e)) (va :: s) x1 t)
                 (mkcfg (p + zlen (comp_e e) + 1) (SIter ks :: SVal v :: s) x1 t)).
  { dostep Hk. rewrite Hva, EK. reflexivity. }
  set (q := p + zlen (comp_e e) + 1) in *.
  match goal with |- match iterate f ?one _ with _ => _ end =>
    pose proof (iter_sim (list V * st) (@lout VS * st) P f one (fun z => mkcfg q (SIter (fst z) :: SVal v :: s) (snd z) t)
                 (fun c0 r => post P c0 p L K s (snd r) t (fst r))) as HI end.
  match type of HI with ?A -> ?B -> _ => assert (HA1 : A); [ | assert (HB1 : B); [ | specialize (HI HA1 HB1 f (ks, x1))]] end.
  - intros. eapply post_pre; eauto.
  - intros [kl x2]. cbn [fst snd].
    assert (RV : reach P 1 (mkcfg q (SIter kl :: SVal v :: s) x2 t) (mkcfg (q + 1) (SRef (resolve x2 y) :: SIter kl :: SVal v :: s) x2 t)).
    { dostep Hv. reflexivity. }
    destruct kl as [ | k kl].
    + assert (RN : reach P 1 (mkcfg (q + 1) (SRef (resolve x2 y) :: SIter [] :: SVal v :: s) x2 t)
                     (mkcfg (q + 1 + 1) (SVal (vflag VS false) :: SIter [] :: SVal v :: s) x2 t)) by (dostep Hn; reflexivity).
      pose proof (step_jfalse P _ _ (SVal (vflag VS false)) (SIter [] :: SVal v :: s) x2 t Hj) as RJ.
      cbn [deref] in RJ. rewrite truthy_flag in RJ.
      cbn [post]. eapply reach_eq. eapply reach_trans0; [exact RV | eapply reach_trans0; [exact RN | eapply reach_trans0; [exact RJ | ]]].
      * apply (step_pop P _ 2 [SIter []; SVal v] s); [ | reflexivity].
        rewrite <- Hp. f_equal. lia.
      * lia.
    + assert (RN : reach P 1 (mkcfg (q + 1) (SRef (resolve x2 y) :: SIter (k :: kl) :: SVal v :: s) x2 t)
                     (mkcfg (q + 1 + 1) (SVal (vflag VS true) :: SIter kl :: SVal v :: s) (wrloc x2 (resolve x2 y) k) t)) by (dostep Hn; reflexivity).
      pose proof (step_jfalse P _ _ (SVal (vflag VS true)) (SIter kl :: SVal v :: s) (wrloc x2 (resolve x2 y) k) t Hj) as RJ.
      cbn [deref] in RJ. rewrite truthy_flag in RJ.
      pose proof (use_body P a f K pops p L _ [SIter kl; SVal v] s (wrloc x2 (resolve x2 y) k) t 1 l IH Hb HE HK HA HPo HX ltac:(lia) ltac:(lia) ltac:(lia)) as UB.
      cbn [app] in UB.
      assert (RA := reach_trans _ _ _ _ _ _ RV (reach_trans _ _ _ _ _ _ RN RJ)).
      destruct (lx f (map inh t) a (wrloc x2 (resolve x2 y) k)) as [[o x3] | ].
      * rewrite lafter_dest. destruct (dest_of false l o).
        { eapply reach_eq. eapply reach_weak; [eapply reach_trans; [exact RA | eapply reach_trans; [exact UB | ]] | ].
          - eapply step_jmp; [exact Hm | exact HE | lia].
          - lia.
          - lia. }
        { cbn [fst snd post]. eapply reach_eq. eapply reach_trans0; [exact RA | eapply reach_trans0; [exact UB | ]].
          - apply (step_pop P _ 2 [SIter kl; SVal v] s); [exact Hp | reflexivity].
          - lia. }
        { cbn [fst snd]. eapply post_pre; [exact RA | exact UB]. }
      * eapply div_pre; [exact RA | exact UB].
  - match type of HI with match ?r with _ => _ end => destruct r as [[o x'] | ] end.
    + cbn [fst snd] in HI. eapply post_pre; [exact R | eapply post_pre; [exact R2 | exact HI]].
    + rewrite Nat.min_id in HI. eapply div_pre; [exact R | eapply div_pre; [exact R2 | exact HI]].
Qed.

End Sim4.
