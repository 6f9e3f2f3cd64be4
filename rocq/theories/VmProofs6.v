(** * Simulation of statements by the VM: try/catch/finally, and the whole induction. *)
Require Import ZArith List Bool Lia.
From Verif Require Import VmModel VmSpec VmProofs VmProofs2 VmProofs3 VmProofs4 VmProofs5.
Import ListNotations.
Local Open Scope Z_scope.

Section Sim6.
Context {VS : vsys}.
Notation V := (val VS).
Notation st := (@state VS).
Notation code := (list (@instr VS)).
Notation cfg := (@cfg VS).

Ltac dostep H := eapply reach_step; unfold step; cbn [ip stk cst tl]; rewrite H; cbn.
Ltac catd :=
  repeat match goal with
  | H : cat _ _ _ (_ ++ _) |- _ => rewrite cat_app in H
  | H : cat _ _ _ (_ :: _) |- _ => cbn [cat ins_at] in H
  | H : cat _ _ _ [] |- _ => clear H
  | H : _ /\ _ |- _ => destruct H
  end.
Ltac zl := repeat first [rewrite zlen_rr | rewrite zlen_app | rewrite zlen_cons | rewrite zlen_nil];
  repeat match goal with |- context [zlen ?c] => lazymatch goal with H : 0 <= zlen c |- _ => fail | _ => pose proof (zlen_nonneg _ c) end end; lia.
Ltac enc := eapply encl_sub; [eassumption | zl | zl].
Ltac usee e K s x t H :=
  match type of H with cat ?P _ ?q ?c =>
    let Hn := fresh "HN" in
    assert (Hn : encl t q (zlen c)) by enc;
    pose proof (sim_e P e K q s x t Hn H); clear Hn
  end.
Ltac usecond e K s x t H :=
  match type of H with cat ?P _ ?q ?c =>
    let Hn := fresh "HN" in
    assert (Hn : encl t q (zlen c)) by enc;
    pose proof (sim_cond P e K q s x t Hn H); clear Hn
  end.

Lemma popto_app : forall (X s : list (@slot VS)), popto (length s) (X ++ s) = s.
Proof.
  intros. unfold popto. rewrite app_length. replace (length s - (length X + length s))%nat with 0%nat by lia.
  cbn [repeat app]. replace (length X + length s - length s)%nat with (length X) by lia.
  rewrite skipn_app, skipn_all, Nat.sub_diag. reflexivity.
Qed.

Lemma in_rng_t : forall a i b, a <= i < b -> in_rng a i b = true.
Proof. intros. unfold in_rng. apply andb_true_iff. rewrite Z.leb_le, Z.ltb_lt. lia. Qed.
Lemma in_rng_f : forall a i b, i < a \/ b <= i -> in_rng a i b = false.
Proof. intros. unfold in_rng. apply andb_false_iff. rewrite Z.leb_gt, Z.ltb_ge. lia. Qed.

(* the entry pushed by the STRY at p *)
Definition ent (p lb lc lf : Z) (n fr : nat) (lo : lastop) (ih : bool) : tryent :=
  mkte p (p + lb) (p + lb + 1) (p + lb + lc) (p + lb + lc + 1) (p + lb + lc + lf) n fr lo ih.

(* leaving the try or catch part by a jump *)
Lemma jump_to_fin : forall p lb lc lf n fr q tg (s : list (@slot VS)) x t lo ih,
  0 < lb -> 0 < lc -> 0 < lf -> p <= q < p + lb + lc -> p + lb + lc + lf + 1 <= tg ->
  do_jump q (tg - 1) s x (ent p lb lc lf n fr lo ih :: t) =
  Run (mkcfg (p + lb + lc + 1) s x (ent p lb lc lf n fr (LJmp (tg - 1)) ih :: t)).
Proof.
  intros. cbn [do_jump ent tstart fend cend fstart].
  rewrite in_rng_f by lia. rewrite in_rng_t by lia. reflexivity.
Qed.
Lemma jump_from_fin : forall p lb lc lf n fr q tg (s : list (@slot VS)) x t lo ih,
  0 < lb -> 0 < lc -> 0 < lf -> p + lb + lc + 1 <= q < p + lb + lc + lf -> p + lb + lc + lf + 1 <= tg ->
  do_jump q (tg - 1) s x (ent p lb lc lf n fr lo ih :: t) = do_jump q (tg - 1) s x t.
Proof.
  intros. cbn [do_jump ent tstart fend cend fstart].
  rewrite in_rng_f by lia. rewrite in_rng_f by lia. rewrite in_rng_t by lia. reflexivity.
Qed.
Lemma throw_to_catch : forall p lb lc lf fr q b (X s : list (@slot VS)) x t lo ih,
  0 < lb -> 0 < lc -> 0 < lf -> p <= q < p + lb ->
  do_throw q b (X ++ s) x (ent p lb lc lf (length s) fr lo ih :: t) =
  Run (mkcfg (p + lb + 1) s x (ent p lb lc lf (length s) fr lo ih :: t)).
Proof.
  intros. cbn [do_throw ent tstart tend cstart tsp]. rewrite popto_app.
  rewrite in_rng_t by lia. reflexivity.
Qed.
Lemma throw_in_catch : forall p lb lc lf fr q b (X s : list (@slot VS)) x t lo ih,
  0 < lb -> 0 < lc -> 0 < lf -> p + lb + 1 <= q < p + lb + lc ->
  do_throw q b (X ++ s) x (ent p lb lc lf (length s) fr lo ih :: t) =
  if b && match map inh t with [] => true | _ => false end then Halt HErr x
  else Run (mkcfg (p + lb + lc + 1) s x (ent p lb lc lf (length s) fr LThrow ih :: t)).
Proof.
  intros. cbn [do_throw ent tstart tend cstart cend tsp]. rewrite popto_app.
  rewrite in_rng_f by lia. rewrite in_rng_t by lia. cbn [length Nat.eqb]. destruct t; reflexivity.
Qed.
Lemma throw_from_fin : forall p lb lc lf fr q b (X s : list (@slot VS)) x t lo ih,
  0 < lb -> 0 < lc -> 0 < lf -> p + lb + lc + 1 <= q < p + lb + lc + lf ->
  do_throw q b (X ++ s) x (ent p lb lc lf (length s) fr lo ih :: t) = do_throw q b s x t.
Proof.
  intros. cbn [do_throw ent tstart tend cstart cend fstart fend tsp]. rewrite popto_app.
  rewrite in_rng_f by lia. rewrite in_rng_f by lia. rewrite in_rng_t by lia. reflexivity.
Qed.

(** Restricting a jump table to the jumps that occur. *)
Definition jeqb (a b : kind * option nat) : bool :=
  match fst a, fst b with KBreak, KBreak | KContinue, KContinue => opt_eqb (snd a) (snd b) | _, _ => false end.
Lemma opt_eqb_eq : forall a b, opt_eqb a b = true <-> a = b.
Proof.
  intros [a | ] [b | ]; cbn; try (split; congruence).
  rewrite Nat.eqb_eq. split; congruence.
Qed.
Lemma jeqb_eq : forall a b, jeqb a b = true <-> a = b.
Proof.
  intros [[ | ] la] [[ | ] lb]; unfold jeqb; cbn [fst snd]; rewrite ?opt_eqb_eq; split; congruence.
Qed.
Definition krestr (js : list (kind * option nat)) (K : ktab) : ktab :=
  fun k l => if existsb (jeqb (k, l)) js then K k l else None.
Lemma krestr_some : forall js K k l r, krestr js K k l = Some r -> In (k, l) js /\ K k l = Some r.
Proof.
  intros js K k l r H. unfold krestr in H. destruct (existsb (jeqb (k, l)) js) eqn:E; [ | discriminate H].
  apply existsb_exists in E. destruct E as [j [HI E]]. apply jeqb_eq in E. subst j. auto.
Qed.
Lemma krestr_in : forall js K k l, In (k, l) js -> krestr js K k l = K k l.
Proof.
  intros js K k l H. unfold krestr. replace (existsb (jeqb (k, l)) js) with true; [reflexivity | ].
  symmetry. apply existsb_exists. exists (k, l). split; [exact H | apply jeqb_eq; reflexivity].
Qed.
Lemma cat_restr : forall (P : code) js K c p, cat P K p c -> cat P (krestr js K) p c.
Proof.
  induction c as [ | a c IH]; intros p H; [exact I | ]. cbn [cat] in *. destruct H as [H1 H2]. split; [ | auto].
  destruct a; cbn [ins_at] in *; try exact H1. unfold krestr. destruct (existsb _ _); [exact H1 | exact I].
Qed.
Lemma Kok_restr : forall js K p L (s : list (@slot VS)), Kok K p L s -> Kok (krestr js K) p L s.
Proof. intros js K p L s H k l tg m E. apply krestr_some in E. destruct E as [_ E]. eapply H; eauto. Qed.
Lemma Kall_restr : forall js K, Kall K js -> Kall (krestr js K) js.
Proof. intros js K H k l HI. rewrite krestr_in by exact HI. apply H. exact HI. Qed.
Lemma Kpops_restr : forall js K pops, Kpops K pops -> Kpops (krestr js K) pops.
Proof. intros js K pops H k l tg m E. apply krestr_some in E. destruct E as [_ E]. eapply H; eauto. Qed.

Definition fin_code (g : option (@stmt VS)) : code :=
  match g with Some s => ISfinal :: comp_s s ++ [IEfinal] | None => [ISfinal; IEfinal] end.
Definition lo_of (K : ktab) (o : @lout VS) (s : list (@slot VS)) (lo : lastop) (s2 : list (@slot VS)) (g : option (@stmt VS)) : Prop :=
  match o with
  | LNorm => lo = LNone /\ s2 = s
  | LThr _ => lo = LThrow /\ s2 = s
  | LBrk l => exists tg m, K KBreak l = Some (tg, m) /\ lo = LJmp (tg - 1) /\ s2 = skipn m s /\ (g = None \/ m = 0%nat)
  | LCnt l => exists tg m, K KContinue l = Some (tg, m) /\ lo = LJmp (tg - 1) /\ s2 = skipn m s /\ (g = None \/ m = 0%nat)
  | _ => False
  end.

Lemma fin_part : forall (P : code) f K pops g p lb lc s s2 x t lo ih fr o,
  let lf := zlen (fin_code g) in let L := lb + lc + lf + 1 in
  0 < lb -> 0 < lc -> encl t p L -> Kok K p L s -> Kall K (match g with Some h => escapes h | None => [] end) ->
  Kpops K pops -> match g with Some h => exits_ok pops h | None => true end = true ->
  (forall h, g = Some h -> good_s P h) ->
  cat P K (p + lb + lc + 1) (fin_code g) -> lo_of K o s lo s2 g ->
  match lfin o x (match g with None => Some (LNorm, restore x fr) | Some h => lx f (true :: map inh t) h (restore x fr) end) with
  | Some (o', x') => post P (mkcfg (p + lb + lc + 1) s2 x (ent p lb lc lf (length s) fr lo ih :: t)) p L K s x' t o'
  | None => exists c', reach P f (mkcfg (p + lb + lc + 1) s2 x (ent p lb lc lf (length s) fr lo ih :: t)) c'
  end.
Proof.
  intros P f K pops g p lb lc s s2 x t lo ih fr o lf L Hlb Hlc HE HK HA HPo HX HG HC HLo.
  assert (Hlf : 0 < lf) by (unfold lf, fin_code; destruct g; zl).
  set (e0 := ent p lb lc lf (length s) fr lo ih) in *. set (e := ent p lb lc lf (length s) fr lo true) in *.
  (* from EFINAL on *)
  assert (EF : forall x2, fetch P (p + lb + lc + lf) = Some IEfinal -> forall c0,
     reach P 0 c0 (mkcfg (p + lb + lc + lf) s2 x2 (e :: t)) ->
     post P c0 p L K s x2 t (match o with LThr _ => LThr false | _ => o end)).
  { intros x2 HF c0 R. destruct o; cbn [lo_of] in HLo; cbn [post].
    - destruct HLo as [-> ->]. eapply reach_eq. eapply reach_trans0; [exact R | ].
      + dostep HF. reflexivity.
      + unfold L. lia.
    - destruct HLo as [tg [m [HKb [-> [-> _]]]]].
      exists (mkcfg (p + lb + lc + lf) (skipn m s) x2 (e :: t)), (p + lb + lc + lf), tg, m.
      split; [exact R | split; [unfold L; lia | split; [exact HKb | ]]].
      unfold step; cbn [ip stk cst tl]. rewrite HF. reflexivity.
    - destruct HLo as [tg [m [HKb [-> [-> _]]]]].
      exists (mkcfg (p + lb + lc + lf) (skipn m s) x2 (e :: t)), (p + lb + lc + lf), tg, m.
      split; [exact R | split; [unfold L; lia | split; [exact HKb | ]]].
      unfold step; cbn [ip stk cst tl]. rewrite HF. reflexivity.
    - destruct HLo.
    - destruct HLo as [-> ->].
      exists (mkcfg (p + lb + lc + lf) s x2 (e :: t)), (p + lb + lc + lf), [].
      split; [exact R | split; [unfold L; lia | ]].
      unfold step; cbn [ip stk cst tl]. rewrite HF. reflexivity.
    - destruct HLo. }
  destruct g as [g | ]; cbn [fin_code] in *.
  - catd.
    assert (Elf : lf = zlen (comp_s g) + 2) by (unfold lf; zl).
    assert (Es : s2 = s).
    { destruct o; cbn [lo_of] in HLo; try tauto.
      - destruct HLo as [tg [m [_ [_ [-> [D | ->]]]]]]; [discriminate D | reflexivity].
      - destruct HLo as [tg [m [_ [_ [-> [D | ->]]]]]]; [discriminate D | reflexivity]. }
    subst s2. pose proof (zlen_nonneg _ (comp_s g)) as N.
    assert (R1 : reach P 1 (mkcfg (p + lb + lc + 1) s x (e0 :: t)) (mkcfg (p + lb + lc + 1 + 1) s (restore x fr) (e :: t))).
    { match goal with H : fetch P (p + lb + lc + 1) = _ |- _ => dostep H end. reflexivity. }
    match goal with H : cat P K (p + lb + lc + 1 + 1) (comp_s g) |- _ => rename H into Hg end.
    match goal with H : fetch P (p + lb + lc + 1 + 1 + zlen (comp_s g)) = _ |- _ => rename H into He end.
    pose proof (HG g eq_refl f K pops (p + lb + lc + 1 + 1) s (restore x fr) (e :: t)) as IH.
    specialize (IH ltac:(cbn [encl]; unfold e; cbn [ent tstart fend]; lia) ltac:(eapply Kok_sub; [exact HK | unfold L; lia]) HA HPo HX Hg).
    cbn [map] in IH; change (inh e) with true in IH.
    destruct (lx f (true :: map inh t) g (restore x fr)) as [[o' x'] | ]; cbn [lfin].
    2: { eapply div_pre; [exact R1 | exact IH]. }
    assert (IH' := post_pre P _ _ _ _ _ _ _ _ _ _ R1 IH). clear IH R1.
    destruct o'; cbn [post] in IH'.
    + apply (EF x').
      * rewrite <- He. f_equal. lia.
      * eapply reach_eq; [exact IH' | lia].
    + destruct IH' as [c [q [tg [m [R [Hq [HKb E]]]]]]]. exists c, q, tg, m.
      split; [exact R | split; [unfold L; lia | split; [exact HKb | ]]].
      rewrite E. apply jump_from_fin; try lia. destruct (HK _ _ _ _ HKb). unfold L in *. lia.
    + destruct IH' as [c [q [tg [m [R [Hq [HKb E]]]]]]]. exists c, q, tg, m.
      split; [exact R | split; [unfold L; lia | split; [exact HKb | ]]].
      rewrite E. apply jump_from_fin; try lia. destruct (HK _ _ _ _ HKb). unfold L in *. lia.
    + exact IH'.
    + destruct IH' as [c [q [X [R [Hq E]]]]]. exists c, q, [].
      split; [exact R | split; [unfold L; lia | ]].
      rewrite E. cbn [app]. apply throw_from_fin; lia.
    + exact IH'.
  - catd. cbn [lfin]. apply (EF (restore x fr)).
    + rewrite <- H0. f_equal. unfold lf. rewrite !zlen_cons, zlen_nil. lia.
    + eapply reach_eq. eapply reach0. dostep H. reflexivity. unfold lf. rewrite !zlen_cons, zlen_nil. lia.
Qed.

Definition cat_code (c : option (nat * @stmt VS)) : code :=
  match c with Some (x, s) => IScatch (Some x) :: comp_s s ++ [IEcatch] | None => [IScatch None; IEcatch] end.

Lemma comp_try : forall b c (g : option (@stmt VS)), comp_s (STry b c g) =
  IStry (zlen (comp_s b ++ [IEtry])) (zlen (cat_code c)) (zlen (fin_code g)) ::
  (comp_s b ++ [IEtry]) ++ cat_code c ++ fin_code g.
Proof. reflexivity. Qed.

Lemma lx_try : forall f d b c (g : option (@stmt VS)) s, lx f d (STry b c g) s =
      match (match lx f (false :: d) b s with
        | Some (LThr _, s') =>
            match c with
            | None => Some (LThr false, s')
            | Some (x, h) =>
                match lx f (true :: d) h (bind_exc s' x) with
                | Some (LThr bt, s'') => Some (if bt && match d with [] => true | _ => false end then LAbort else LThr bt, s'')
                | r => r
                end
            end
        | r => r
        end) with
      | None => None
      | Some (LRet v, s') => Some (LRet v, s')
      | Some (LAbort, s') => Some (LAbort, s')
      | Some (o, s') =>
          lfin o s' (match g with None => Some (LNorm, restore s' (length (frames s))) | Some g => lx f (true :: d) g (restore s' (length (frames s))) end)
      end.
Proof. reflexivity. Qed.

Lemma sim_try : forall (P : code) b c g, good_s P b -> (forall x h, c = Some (x, h) -> good_s P h) ->
  (forall h, g = Some h -> good_s P h) -> good_s P (STry b c g).
Proof.
  intros P b c g IHb IHc IHg f K pops p s x t HE HK HA HPo HX HC.
  rewrite comp_try in *. rewrite lx_try. cbn [escapes exits_ok] in *.
  apply Kall_app in HA. destruct HA as [HAb HA]. apply Kall_app in HA. destruct HA as [HAc HAg].
  apply andb_true_iff in HX. destruct HX as [HX HXg]. apply andb_true_iff in HX. destruct HX as [HXb HXc].
  set (lb := zlen (comp_s b ++ [IEtry])) in *. set (lc := zlen (cat_code c)) in *. set (lf := zlen (fin_code g)) in *.
  catd.
  match goal with H : fetch P p = _ |- _ => rename H into Hs end.
  match goal with H : cat P K _ (comp_s b) |- _ => rename H into Hb end.
  match goal with H : cat P K _ (cat_code c) |- _ => rename H into Hc end.
  match goal with H : cat P K _ (fin_code g) |- _ => rename H into Hg end.
  match goal with H : fetch P _ = Some IEtry |- _ => rename H into Hety end.
  pose proof (zlen_nonneg _ (comp_s b)) as N1.
  assert (Elb : lb = zlen (comp_s b) + 1) by (unfold lb; zl).
  assert (Hlc : 2 <= lc) by (unfold lc, cat_code; destruct c as [[? ?] | ]; zl).
  assert (Hlf : 2 <= lf) by (unfold lf, fin_code; destruct g; zl).
  assert (EL : zlen (IStry lb lc lf :: (comp_s b ++ [IEtry]) ++ cat_code c ++ fin_code g) = lb + lc + lf + 1) by (rewrite zlen_cons, !zlen_app; fold lc lf; rewrite zlen_cons, zlen_nil; lia).
  rewrite EL in *. set (L := lb + lc + lf + 1) in *.
  replace (p + 1 + zlen (comp_s b ++ [IEtry])) with (p + lb + 1) in * by (fold lb; lia).
  fold lc in Hg. replace (p + lb + 1 + lc) with (p + lb + lc + 1) in Hg by lia.
  set (fr := length (frames x)) in *. set (e0 := ent p lb lc lf (length s) fr LNone false) in *. set (e1 := ent p lb lc lf (length s) fr LNone true) in *.
  assert (R0 : reach P 1 (mkcfg p s x t) (mkcfg (p + 1) s x (e0 :: t))).
  { dostep Hs. reflexivity. }
  (* the finally part *)
  assert (FIN : forall ih o lo s2 x2 c0, lo_of K o s lo s2 g ->
     reach P 0 c0 (mkcfg (p + lb + lc + 1) s2 x2 (ent p lb lc lf (length s) fr lo ih :: t)) ->
     match lfin o x2 (match g with None => Some (LNorm, restore x2 fr) | Some h => lx f (true :: map inh t) h (restore x2 fr) end) with
     | Some (o', x') => post P c0 p L K s x' t o'
     | None => exists c', reach P f c0 c'
     end).
  { intros ih o lo s2 x2 c0 HLo R.
    assert (HXg' : match g with Some h => exits_ok pops h | None => true end = true).
    { destruct g; [apply andb_true_iff in HXg; tauto | reflexivity]. }
    pose proof (fin_part P f K pops g p lb lc s s2 x2 t lo ih fr o ltac:(lia) ltac:(lia) HE HK HAg HPo HXg' IHg Hg HLo) as F.
    cbv zeta in F. fold lf in F. fold L in F.
    destruct (lfin o x2 _) as [[o' x'] | ].
    - eapply post_pre; [exact R | exact F].
    - eapply div_pre; [exact R | exact F]. }
  (* a jump out of the try or catch part *)
  assert (JMP : forall ih k l q tg m x2 c0 c (o : @lout VS), (o = match k with KBreak => LBrk l | KContinue => LCnt l end) ->
     reach P 0 c0 c -> p <= q < p + lb + lc -> K k l = Some (tg, m) -> (g = None \/ m = 0%nat) ->
     step P c = do_jump q (tg - 1) (skipn m s) x2 (ent p lb lc lf (length s) fr LNone ih :: t) ->
     match lfin o x2 (match g with None => Some (LNorm, restore x2 fr) | Some h => lx f (true :: map inh t) h (restore x2 fr) end) with
     | Some (o', x') => post P c0 p L K s x' t o'
     | None => exists c', reach P f c0 c'
     end).
  { intros ih k l q tg m x2 c0 cc o -> R Hq HKk Hm E.
    destruct (HK _ _ _ _ HKk) as [Htg Hms].
    rewrite jump_to_fin in E by (unfold L in *; lia).
    eapply (FIN _ _ (LJmp (tg - 1)) (skipn m s)).
    - destruct k; cbn [lo_of]; exists tg, m; auto.
    - eapply reach_trans0; [exact R | eapply reach_step; exact E]. }
  assert (POPS0 : forall k l tg m, In (k, l) (escapes b ++ match c with Some (_, h) => escapes h | None => [] end) ->
     K k l = Some (tg, m) -> g = None \/ m = 0%nat).
  { intros k l tg m HI HKk. destruct g; [right | left; reflexivity].
    apply andb_true_iff in HXg. destruct HXg as [_ HXf]. rewrite forallb_forall in HXf.
    specialize (HXf _ HI). cbn [fst snd] in HXf. apply Nat.eqb_eq in HXf. rewrite (HPo _ _ _ _ HKk) in HXf. exact HXf. }
  (* the body *)
  pose proof (IHb f (krestr (escapes b) K) pops (p + 1) s x (e0 :: t)) as B.
  specialize (B ltac:(cbn [encl]; unfold e0; cbn [ent tstart fend]; lia)
                ltac:(apply Kok_restr; eapply Kok_sub; [exact HK | unfold L; lia])
                (Kall_restr _ _ HAb) (Kpops_restr _ _ _ HPo) HXb (cat_restr _ _ _ _ _ Hb)).
  cbn [map] in B; change (inh e0) with false in B.
  destruct (lx f (false :: map inh t) b x) as [[ob x1] | ].
  2: { eapply div_pre; [exact R0 | exact B]. }
  apply (post_pre P _ _ _ _ _ _ _ _ _ _ R0) in B. clear R0.
  destruct ob; cbn [post] in B.
  - eapply (FIN _ _ LNone s); [split; reflexivity | ].
    eapply reach_trans0; [exact B | ]. dostep Hety. reflexivity.
  - destruct B as [cc [q [tg [m [R [Hq [HKb E]]]]]]]. apply krestr_some in HKb. destruct HKb as [HI HKb].
    eapply (JMP _ KBreak l q tg m x1); [reflexivity | exact R | lia | exact HKb | | exact E].
    eapply POPS0; [apply in_or_app; left; exact HI | exact HKb].
  - destruct B as [cc [q [tg [m [R [Hq [HKb E]]]]]]]. apply krestr_some in HKb. destruct HKb as [HI HKb].
    eapply (JMP _ KContinue l q tg m x1); [reflexivity | exact R | lia | exact HKb | | exact E].
    eapply POPS0; [apply in_or_app; left; exact HI | exact HKb].
  - exact B.
  - destruct B as [cc [q [X [R [Hq E]]]]]. unfold e0 in E. rewrite throw_to_catch in E by lia. fold e0 in E.
    assert (RC : reach P 0 (mkcfg p s x t) (mkcfg (p + lb + 1) s x1 (e0 :: t))) by (eapply reach_trans0; [exact R | eapply reach_step; exact E]).
    clear R E cc q X Hq.
    destruct c as [[y h] | ]; cbn [cat_code] in Hc.
    + catd. match goal with H : fetch P (p + lb + 1) = _ |- _ => rename H into Hsc end.
      match goal with H : cat P K _ (comp_s h) |- _ => rename H into Hh end.
      match goal with H : fetch P _ = Some IEcatch |- _ => rename H into Hec end.
      pose proof (zlen_nonneg _ (comp_s h)) as N2.
      assert (Elc : lc = zlen (comp_s h) + 2) by (unfold lc; cbn [cat_code]; zl).
      assert (RB : reach P 0 (mkcfg p s x t) (mkcfg (p + lb + 1 + 1) s (bind_exc x1 y) (e1 :: t))).
      { eapply reach_trans0; [exact RC | ]. dostep Hsc. reflexivity. }
      pose proof (IHc y h eq_refl f (krestr (escapes h) K) pops (p + lb + 1 + 1) s (bind_exc x1 y) (e1 :: t)) as C.
      specialize (C ltac:(cbn [encl]; unfold e1; cbn [ent tstart fend]; lia)
                ltac:(apply Kok_restr; eapply Kok_sub; [exact HK | unfold L; lia])
                (Kall_restr _ _ HAc) (Kpops_restr _ _ _ HPo) HXc (cat_restr _ _ _ _ _ Hh)).
      cbn [map] in C; change (inh e1) with true in C.
      destruct (lx f (true :: map inh t) h (bind_exc x1 y)) as [[oc x2] | ].
      2: { eapply div_pre; [exact RB | exact C]. }
      apply (post_pre P _ _ _ _ _ _ _ _ _ _ RB) in C.
      destruct oc; cbn [post] in C.
      * eapply (FIN _ _ LNone s); [split; reflexivity | ].
        eapply reach_trans0; [exact C | ]. dostep Hec. reflexivity.
      * destruct C as [cc [q [tg [m [R [Hq [HKb E]]]]]]]. apply krestr_some in HKb. destruct HKb as [HI HKb].
        eapply (JMP _ KBreak l q tg m x2); [reflexivity | exact R | lia | exact HKb | | exact E].
        eapply POPS0; [apply in_or_app; right; exact HI | exact HKb].
      * destruct C as [cc [q [tg [m [R [Hq [HKb E]]]]]]]. apply krestr_some in HKb. destruct HKb as [HI HKb].
        eapply (JMP _ KContinue l q tg m x2); [reflexivity | exact R | lia | exact HKb | | exact E].
        eapply POPS0; [apply in_or_app; right; exact HI | exact HKb].
      * exact C.
      * destruct C as [cc [q [X [R [Hq E]]]]]. unfold e1 in E. rewrite throw_in_catch in E by lia.
        destruct (byth0 && match map inh t with [] => true | _ => false end).
        { exists cc. split; [exact R | exact E]. }
        { eapply (FIN _ _ LThrow s); [split; reflexivity | ].
          eapply reach_trans0; [exact R | eapply reach_step; exact E]. }
      * exact C.
    + catd. match goal with H : fetch P (p + lb + 1) = _ |- _ => rename H into Hsc end.
      assert (Elc : lc = 2) by (unfold lc; cbn [cat_code]; zl).
      eapply (FIN _ _ LThrow s); [split; reflexivity | ].
      eapply reach_trans0; [exact RC | ]. eapply reach_step. unfold step; cbn [ip stk cst tl]. rewrite Hsc.
      unfold e0. pose proof (throw_in_catch p lb lc lf fr (p + lb + 1) false [] s x1 t LNone false) as E. cbn [app] in E. rewrite E by lia. reflexivity.
  - exact B.
Qed.

(** ** The other statements, and the induction *)
Theorem sim_s : forall (P : code) a, good_s P a.
Proof.
  intros P. apply (stmt_both (good_s P) (good_cs P)).
  - (* ; *)
    intros f K pops p s x t HE HK HA HPo HX HC. cbn [comp_s lx] in *. catd. cbn [post].
    eapply reach_eq. eapply reach0. dostep H. reflexivity. zl.
  - (* expression *)
    intros e f K pops p s x t HE HK HA HPo HX HC. cbn [comp_s lx] in *. catd.
    usee e K s x t H. destruct (leval (hold (map inh t)) e x) as [[a x'] | x']; cbn [post].
    + eapply reach_eq. eapply reach_trans0; [exact H2 | ]. apply (step_pop P _ 1 [a] s); [exact H0 | reflexivity]. zl.
    + eapply throws_pre with (Y := []); [apply reach_refl | exact H2 | zl | zl].
  - (* sequence *)
    intros a b IHa IHb f K pops p s x t HE HK HA HPo HX HC. cbn [comp_s lx escapes exits_ok] in *. catd.
    apply Kall_app in HA. destruct HA as [HA1 HA2]. apply andb_true_iff in HX. destruct HX as [HX1 HX2].
    pose proof (zlen_nonneg _ (comp_s a)) as N1. pose proof (zlen_nonneg _ (comp_s b)) as N2.
    rewrite zlen_app in *.
    specialize (IHa f K pops p s x t ltac:(eapply encl_sub; [exact HE | lia | lia]) ltac:(eapply Kok_sub; [exact HK | lia]) HA1 HPo HX1 H).
    destruct (lx f (map inh t) a x) as [[o x'] | ]; [ | exact IHa].
    destruct o; try (eapply post_sub; [exact IHa | congruence | lia | lia]).
    specialize (IHb f K pops (p + zlen (comp_s a)) s x' t ltac:(eapply encl_sub; [exact HE | lia | lia]) ltac:(eapply Kok_sub; [exact HK | lia]) HA2 HPo HX2 H0).
    cbn [post] in IHa.
    destruct (lx f (map inh t) b x') as [[o x2] | ].
    + apply (post_pre P _ _ _ _ _ _ _ _ _ _ IHa) in IHb.
      destruct o; try (eapply post_sub; [exact IHb | congruence | lia | lia]).
      cbn [post] in *. eapply reach_eq; [exact IHb | lia].
    + eapply div_pre; [exact IHa | exact IHb].
  - (* var *)
    intros y [e | ] f K pops p s x t HE HK HA HPo HX HC; cbn [comp_s lx] in *; catd.
    + assert (R1 : reach P 1 (mkcfg p s x t) (mkcfg (p + 1) (SRef (resolve x y) :: s) x t)) by (dostep H; reflexivity).
      usee e K (SRef (resolve x y) :: s) x t H0. destruct (leval (hold (map inh t)) e x) as [[a x'] | x']; cbn [post].
      * eapply reach_eq. eapply reach_trans0; [exact R1 | eapply reach_trans0; [exact H4 | eapply reach_trans0]].
        { dostep H1. reflexivity. }
        { apply (step_pop P _ 1 [SRef (resolve x y)] s); [exact H2 | reflexivity]. }
        zl.
      * eapply throws_pre with (Y := [_]); [exact R1 | exact H4 | zl | zl].
    + cbn [post]. eapply reach_eq. eapply (reach_trans0 P 1 0). { dostep H. reflexivity. }
      eapply (reach_trans0 P 1 0). { dostep H0. reflexivity. }
      eapply (reach_trans0 P 1 1). { dostep H1. reflexivity. }
      { apply (step_pop P _ 1 [SRef (resolve x y)] s); [exact H2 | reflexivity]. }
      zl.
  - (* if *)
    intros c a IH f K pops p s x t HE HK HA HPo HX HC. cbn [comp_s lx escapes exits_ok] in *. catd.
    pose proof (zlen_nonneg _ (comp_e c)) as N1. pose proof (zlen_nonneg _ (comp_s a)) as N2.
    set (L := zlen (comp_e c ++ _)) in *. assert (HL : L = zlen (comp_e c) + zlen (comp_s a) + 1) by (unfold L; zl).
    usecond c K s x t H. destruct (lval (hold (map inh t)) c x) as [[v x1] | x1].
    + destruct H2 as [va [Hv R]]. pose proof (step_jfalse P _ _ va s x1 t H0) as RJ. rewrite Hv in RJ.
      assert (RA := reach_trans _ _ _ _ _ _ R RJ). destruct (truthy VS v).
      * idtac.
        match type of H1 with cat _ _ ?q _ => specialize (IH f K pops q s x1 t ltac:(eapply encl_sub; [exact HE | lia | lia]) ltac:(eapply Kok_sub; [exact HK | lia]) HA HPo HX H1) end.
        destruct (lx f (map inh t) a x1) as [[o x2] | ].
        { apply (post_pre P _ _ _ _ _ _ _ _ _ _ RA) in IH.
          destruct o; try (eapply post_sub; [exact IH | congruence | lia | lia]).
          cbn [post] in *. eapply reach_eq; [exact IH | lia]. }
        { eapply div_pre; [exact RA | exact IH]. }
      * cbn [post]. eapply reach_eq. eapply reach0; exact RA. lia.
    + cbn [post]. eapply throws_pre with (Y := []); [apply reach_refl | exact H2 | lia | lia].
  - (* if else *)
    intros c a b IHa IHb f K pops p s x t HE HK HA HPo HX HC. cbn [comp_s lx escapes exits_ok] in *. catd.
    apply Kall_app in HA. destruct HA as [HA1 HA2]. apply andb_true_iff in HX. destruct HX as [HX1 HX2].
    pose proof (zlen_nonneg _ (comp_e c)) as N1. pose proof (zlen_nonneg _ (comp_s a)) as N2. pose proof (zlen_nonneg _ (comp_s b)) as N3.
    set (L := zlen (comp_e c ++ _)) in *. assert (HL : L = zlen (comp_e c) + zlen (comp_s a) + zlen (comp_s b) + 2) by (unfold L; zl).
    usecond c K s x t H. destruct (lval (hold (map inh t)) c x) as [[v x1] | x1].
    + destruct H4 as [va [Hv R]]. pose proof (step_jfalse P _ _ va s x1 t H0) as RJ. rewrite Hv in RJ.
      assert (RA := reach_trans _ _ _ _ _ _ R RJ). destruct (truthy VS v).
      * match type of H1 with cat _ _ ?q _ => specialize (IHa f K pops q s x1 t ltac:(eapply encl_sub; [exact HE | lia | lia]) ltac:(eapply Kok_sub; [exact HK | lia]) HA1 HPo HX1 H1) end.
        destruct (lx f (map inh t) a x1) as [[o x2] | ].
        { apply (post_pre P _ _ _ _ _ _ _ _ _ _ RA) in IHa.
          destruct o; try (eapply post_sub; [exact IHa | congruence | lia | lia]).
          cbn [post] in *. eapply reach_eq. eapply reach_trans0; [exact IHa | ].
          - eapply step_jmp; [exact H2 | exact HE | lia].
          - lia. }
        { eapply div_pre; [exact RA | exact IHa]. }
      * match type of H3 with cat _ _ ?q _ => specialize (IHb f K pops q s x1 t ltac:(eapply encl_sub; [exact HE | lia | lia]) ltac:(eapply Kok_sub; [exact HK | lia]) HA2 HPo HX2 H3) end.
        match type of RA with reach _ _ _ (mkcfg ?q1 _ _ _) => match type of H3 with cat _ _ ?q2 _ => replace q1 with q2 in RA by lia end end.
        destruct (lx f (map inh t) b x1) as [[o x2] | ].
        { apply (post_pre P _ _ _ _ _ _ _ _ _ _ RA) in IHb.
          destruct o; try (eapply post_sub; [exact IHb | congruence | lia | lia]).
          cbn [post] in *. eapply reach_eq; [exact IHb | lia]. }
        { eapply div_pre; [exact RA | exact IHb]. }
    + cbn [post]. eapply throws_pre with (Y := []); [apply reach_refl | exact H4 | lia | lia].
  - intros; apply sim_while; auto.
  - intros; apply sim_do; auto.
  - intros; apply sim_for; auto.
  - intros; apply sim_forin; auto.
  - intros; apply sim_switch; auto.
  - (* break *)
    intros l f K pops p s x t HE HK HA HPo HX HC. cbn [comp_s lx escapes] in *. catd. cbn [post].
    specialize (HA KBreak l ltac:(left; reflexivity)). destruct (K KBreak l) as [[tg m] | ] eqn:EK; [ | congruence].
    exists (mkcfg p s x t), p, tg, m. split; [apply reach_refl | split; [zl | split; [exact EK | ]]].
    unfold step; cbn [ip stk cst tl]. rewrite H. cbn [Nat.add]. destruct (HK _ _ _ _ EK) as [_ Hm].
    destruct m as [ | m]; cbn [mkjmp].
    + f_equal. lia.
    + replace (Nat.leb (S m) (length s)) with true by (symmetry; apply Nat.leb_le; lia). f_equal. lia.
  - (* continue *)
    intros l f K pops p s x t HE HK HA HPo HX HC. cbn [comp_s lx escapes] in *. catd. cbn [post].
    specialize (HA KContinue l ltac:(left; reflexivity)). destruct (K KContinue l) as [[tg m] | ] eqn:EK; [ | congruence].
    exists (mkcfg p s x t), p, tg, m. split; [apply reach_refl | split; [zl | split; [exact EK | ]]].
    unfold step; cbn [ip stk cst tl]. rewrite H. cbn [Nat.add]. destruct (HK _ _ _ _ EK) as [_ Hm].
    destruct m as [ | m]; cbn [mkjmp].
    + f_equal. lia.
    + replace (Nat.leb (S m) (length s)) with true by (symmetry; apply Nat.leb_le; lia). f_equal. lia.
  - (* return *)
    intros [e | ] f K pops p s x t HE HK HA HPo HX HC; cbn [comp_s lx] in *; catd.
    + usecond e K s x t H. destruct (lval (hold (map inh t)) e x) as [[v x1] | x1]; cbn [post].
      * destruct H2 as [va [Hv R]]. eexists. split; [eapply reach0; exact R | ].
        unfold step; cbn [ip stk cst tl]. rewrite H0, Hv. reflexivity.
      * eapply throws_pre with (Y := []); [apply reach_refl | exact H2 | zl | zl].
    + cbn [post]. eexists. split; [apply reach_refl | ]. unfold step; cbn [ip stk cst tl]. rewrite H. reflexivity.
  - (* throw *)
    intros e f K pops p s x t HE HK HA HPo HX HC; cbn [comp_s lx] in *; catd.
    usecond e K s x t H. destruct (lval (hold (map inh t)) e x) as [[v x1] | x1]; cbn [post].
    + destruct H2 as [va [Hv R]]. eexists _, _, [SVal v]. split; [eapply reach0; exact R | split].
      2: { unfold step; cbn [ip stk cst tl]. rewrite H0, Hv. reflexivity. }
      zl.
    + eapply throws_pre with (Y := []); [apply reach_refl | exact H2 | zl | zl].
  - intros; apply sim_try; auto.
  - (* no clauses *)
    intros f K pops p s x t i HE HK HA HPo HX HC. cbn [lxf comp_cs post].
    eapply reach_eq; [apply reach_refl | destruct i; cbn; lia].
  - intros e a cs IHa IHcs f K pops p s x t i HE HK HA HPo HX HC.
    rewrite lxf_cons. rewrite comp_cs_cons, escapes_cs_cons, exits_ok_cs_cons in *. catd.
    apply Kall_app in HA. destruct HA as [HA1 HA2]. apply andb_true_iff in HX. destruct HX as [HX1 HX2].
    rewrite zlen_app in *.
    pose proof (zlen_nonneg _ (comp_s a)) as N1. pose proof (zlen_nonneg _ (comp_cs cs)) as N2.
    assert (REST : forall j x', match lxf f (map inh t) cs j x' with
      | Some (o, x2) => post P (mkcfg (p + zlen (comp_s a) + off_of cs j) s x' t) p (zlen (comp_s a) + zlen (comp_cs cs)) K s x2 t o
      | None => exists c', reach P f (mkcfg (p + zlen (comp_s a) + off_of cs j) s x' t) c' end).
    { intros j x'. specialize (IHcs f K pops (p + zlen (comp_s a)) s x' t j ltac:(eapply encl_sub; [exact HE | lia | lia]) ltac:(eapply Kok_sub; [exact HK | lia]) HA2 HPo HX2 H0).
      destruct (lxf f (map inh t) cs j x') as [[o x2] | ]; [ | exact IHcs].
      destruct o; try (eapply post_sub; [exact IHcs | congruence | lia | lia]).
      cbn [post] in *. eapply reach_eq; [exact IHcs | lia]. }
    destruct i as [ | i].
    + cbn [off_of]. rewrite Z.add_0_r.
      specialize (IHa f K pops p s x t ltac:(eapply encl_sub; [exact HE | lia | lia]) ltac:(eapply Kok_sub; [exact HK | lia]) HA1 HPo HX1 H).
      destruct (lx f (map inh t) a x) as [[o x'] | ]; [ | exact IHa].
      destruct o; try (eapply post_sub; [exact IHa | congruence | lia | lia]).
      specialize (REST 0%nat x'). cbn [post] in IHa.
      replace (p + zlen (comp_s a) + off_of cs 0) with (p + zlen (comp_s a)) in REST by (destruct cs; cbn; lia).
      destruct (lxf f (map inh t) cs 0 x') as [[o x2] | ].
      * eapply post_pre; [exact IHa | exact REST].
      * eapply div_pre; [exact IHa | exact REST].
    + cbn [off_of]. specialize (REST i x). rewrite Z.add_assoc. exact REST.
Qed.

End Sim6.
