(** * What scripts cannot change; what [new] makes *)
Require Import ZArith List Bool Lia.
Import ListNotations.
Require Import Verif.FnModel Verif.FnSpec Verif.FnSpec2 Verif.FnSpec3 Verif.FnProofs Verif.FnProofs2 Verif.FnProofs3 Verif.FnProofs4 Verif.FnProofs5 Verif.FnProofs6 Verif.FnProofs7 Verif.FnProofs8 Verif.FnProofs9 Verif.FnProofs10 Verif.FnProofs11 Verif.FnProofs12.
Local Open Scope nat_scope.

Section After.
Context {PS : psys}.
Notation V := (value (prim PS)).
Notation vundef := (VPrim (undef PS)).
Notation mem := (@mem PS).
Notation expr := (@expr PS).
Notation exprs := (@exprs PS).
Notation stmt := (@stmt PS).
Notation fundef := (@fundef PS).
Notation ctx := (@ctx PS).
Hypothesis NF : no_forging PS.

Lemma cell_nth (m m' : mem) c : nth_error (cells m') c = nth_error (cells m) c -> cell m' c = cell m c.
Proof. intros H. now rewrite <- !readc_cell; unfold readc; rewrite H. Qed.

Lemma proto_var_kept (m m' : mem) b f sc : sane m -> ev m m' -> fn (getobj m b) = Some (f, sc) ->
  fn (getobj m' b) = Some (f, sc) /\ variable m' b prototype = variable m b prototype.
Proof.
  intros SN E H. apply fn_at in H. pose proof (later_clo _ _ _ _ _ (ev_later _ _ E) H) as H'.
  split; [now apply fn_at|]. destruct (sn_fun _ SN _ _ _ H) as (_ & _ & _ & c & p & Hc & Hp).
  destruct (ev_pro _ _ E _ _ _ _ H Hc) as [H1 H2]. unfold variable. rewrite !own_own_cell, H1, Hc. cbn [option_map].
  f_equal. now apply cell_nth.
Qed.
Lemma fn_lt (m : mem) b f sc : fn (getobj m b) = Some (f, sc) -> b < length (objs m).
Proof. intros H. apply fn_at in H. destruct H as (o & Ho & _). eapply obj_at_lt, Ho. Qed.
Lemma inherits_lt (m : mem) a b : sane m -> inherits m a b -> b < length (objs m).
Proof. intros SN. induction 1; [eapply proto_lt; eassumption|assumption]. Qed.
Lemma inherits_kept (m m' : mem) a b : sane m -> later m m' -> a < length (objs m) -> (inherits m' a b <-> inherits m a b).
Proof.
  intros SN L Ha. split.
  - intros H. revert Ha. induction H as [a p H|a p q H _ IH]; intros Ha; rewrite (proto_old _ _ _ L Ha) in H.
    + now apply inh_one.
    + apply inh_more with p; [exact H|]. apply IH. eapply proto_lt; eassumption.
  - induction 1 as [a p H|a p q H _ IH].
    + apply inh_one. now rewrite (proto_old _ _ _ L Ha).
    + apply inh_more with p; [now rewrite (proto_old _ _ _ L Ha)|]. apply IH. eapply proto_lt; eassumption.
Qed.
Lemma instance_kept (m m' : mem) a b f sc : sane m -> sane m' -> ev m m' -> a < length (objs m) ->
  fn (getobj m b) = Some (f, sc) -> instance_of m' (VObj a) (VObj b) = instance_of m (VObj a) (VObj b).
Proof.
  intros SN SN' E Ha Hf. destruct (proto_var_kept m m' b f sc SN E Hf) as [Hf' Hv].
  apply eq_true_iff_eq. rewrite !inst_spec by assumption.
  split; intros (g & s & p & Hg & Hp & Hi); exists f, sc, p; (split; [assumption|]).
  - rewrite <- Hv. split; [exact Hp|]. now apply (inherits_kept m m' a p SN (ev_later _ _ E) Ha).
  - rewrite Hv. split; [exact Hp|]. now apply (inherits_kept m m' a p SN (ev_later _ _ E) Ha).
Qed.

(** ** Variables of a call *)
Lemma visible_scope (m : mem) b f sc a : sane m -> fn (getobj m b) = Some (f, sc) -> In a sc -> a <> glob -> activation m a.
Proof.
  intros SN H Ha Hg. apply fn_at in H. destruct (sn_fun _ SN _ _ _ H) as (_ & _ & [Hs _] & _).
  destruct (Hs a) as [[-> _]|Hact]; [now apply in_rev in Ha|now contradiction Hg|exact Hact].
Qed.
Lemma own_var_kept (m m' : mem) a c x : activation m a -> own_cell m a x = Some c ->
  ev m m' -> cell_rel c m m' -> variable m' a x = variable m a x.
Proof.
  intros Ha Hc E [_ R]. unfold variable. rewrite !own_own_cell, (ev_act _ _ E _ _ Ha), Hc. cbn [option_map].
  f_equal. now rewrite <- !readc_cell.
Qed.
(* the text [g] is, or is in, the text of a function that sees the scope [a] *)
Definition near (m : mem) (a : nat) (g : fundef) : Prop := exists f, sees m a f /\ In g (funs_f f).
Lemma private_step (FS : list fundef) (HFc : forall f, In f FS -> incl (funs_s (body f)) FS) n q m th v m1 th1 a c x (Gf : fundef -> Prop) :
  (forall f, In f FS -> is_arrow f = false) ->
  (forall f, Gf f -> forall f', In f' (funs_s (body f)) -> Gf f') ->
  (forall f, Gf f -> ~ In x (asg_s (body f))) ->
  okm FS m th -> incl (funs_s q) FS -> run_more n q th m = Done v m1 th1 ->
  a <> 0 -> cell_inv a c x Gf True m -> cell_inv a c x Gf True m1 /\ cell_rel c m m1 /\ okm FS m1 th1 /\ ev m m1.
Proof.
  intros HFp HG1 HG2 HO HF HR Ha HI.
  destruct (more_exec NF FS HFc HFp n q th m v m1 th1 HO HF HR) as (k & HE & _ & HO1 & E1 & _).
  pose proof (cell_good a c x Gf True HG1 (fun _ => HG2)) as G.
  pose proof (inv_stmt _ _ _ _ _ G true _ (inv_call _ _ _ _ _ G true n) n I q top m HI) as K.
  rewrite HE in K. destruct K as [K1 K2].
  - split; [|intros [H|[]]; congruence]. intros s [<-|[]]. pose proof (sn_base _ (ok_sane _ _ _ HO)). lia.
  - auto.
Qed.
Lemma private_kept (m : mem) th qs m' th' b f sc a x :
  reached m th -> forallb no_arrows qs = true -> scripts qs m th m' th' ->
  fn (getobj m b) = Some (f, sc) -> In a sc -> a <> glob ->
  (forall g, sees m a g -> never_assigns g x) ->
  variable m' a x = variable m a x.
Proof.
  intros HR Hq HS Hf Ha Hg Hx.
  destruct (reached_more NF m th qs m' th' HR Hq HS) as (FS & FC & FP & FI & HO & HO' & E).
  pose proof (ok_sane _ _ _ HO) as SN.
  pose proof (visible_scope m b f sc a SN Hf Ha Hg) as Hact.
  destruct (own_cell m a x) as [c|] eqn:EC.
  2:{ unfold variable. now rewrite !own_own_cell, (ev_act _ _ E _ _ Hact), EC. }
  set (Gf := near m a).
  assert (G1 : forall f, Gf f -> forall f', In f' (funs_s (body f)) -> Gf f').
  { intros g (h & Hh & Hin) g' Hg'. exists h. split; [exact Hh|].
    rewrite funs_f_body in Hin |- *. right. destruct Hin as [->|Hin]; [exact Hg'|].
    exact (funs_s_closed (body h) g Hin g' Hg'). }
  assert (G2 : forall f, Gf f -> ~ In x (asg_s (body f))).
  { intros g (h & Hh & Hin). exact (Hx h Hh g Hin). }
  assert (I0 : cell_inv a c x Gf True m).
  { split; [apply SN|]. split; [destruct Hact as [_ (o & Ho & _)]; eapply obj_at_lt, Ho|]. split.
    - intros _ b' g s Hc Hs. exists g. split; [|rewrite funs_f_body; now left]. exists b', s. split; [now apply fn_at|exact Hs].
    - split; [eapply (wf_bound _ (sn_wf _ SN)), EC|]. intros a' k' H'. destruct (wf_uniq _ (sn_wf _ SN) _ _ _ _ _ H' EC). auto. }
  assert (K : cell_inv a c x Gf True m' /\ cell_rel c m m').
  { clear Hf Ha Hx Hq HR EC Hact SN HO' E. revert FI HO I0 G1 G2. generalize Gf. clear Gf. intros Gf.
    induction HS as [m th|q qs n v m th m1 th1 m' th' HR HS IH]; intros FI HO I0 G1 G2.
    - split; [exact I0|]. split; [apply later_refl|reflexivity].
    - cbn [flat_map] in FI.
      destruct (private_step FS FC n q m th v m1 th1 a c x Gf FP G1 G2 HO
        (fun h H => FI h (in_or_app _ _ _ (or_introl H))) HR Hg I0) as (I1 & R1 & O1 & E1).
      destruct (IH (fun h H => FI h (in_or_app _ _ _ (or_intror H))) O1 I1 G1 G2) as [I2 R2].
      split; [exact I2|]. destruct R1 as [L1 R1], R2 as [L2 R2]. split; [eapply later_trans; eassumption|congruence]. }
  eapply own_var_kept; eauto. apply K.
Qed.

(** ** Values *)
Lemma values_exist (m : mem) c a : sane m -> cell m c = VObj a -> a < length (objs m) /\ forall b f sc, fn (getobj m b) = Some (f, sc) -> In a sc -> a = glob.
Proof.
  intros SN H. rewrite <- readc_cell in H. pose proof (readc_ok m c SN) as K. rewrite H in K. cbn in K.
  split; [now apply user_lt|]. intros b f sc Hf Ha. destruct (Nat.eq_dec a glob) as [|Hn]; [assumption|].
  destruct (visible_scope m b f sc a SN Hf Ha Hn) as [H6 (o & Ho & Hp & _)]. destruct K as (o' & Ho' & [K|K]); [congruence|lia].
Qed.

(** ** new *)
Lemma plain_exec late callf loops (s : stmt) : plain_returns s = true -> forall c (m : mem) k m',
  exec late callf loops c s m = Ok k m' -> res_of k = vundef.
Proof.
  intros Hp.
  assert (Q : forall s : stmt, plain_returns s = true -> forall c (m : mem) k m', exec late callf loops c s m = Ok k m' -> res_of k = vundef).
  2:{ exact (Q s Hp). }
  clear s Hp.
  apply (stmt_mut PS (fun _ => True) (fun _ => True) (fun _ => True)
    (fun s => plain_returns s = true -> forall c (m : mem) k m', exec late callf loops c s m = Ok k m' -> res_of k = vundef) (fun _ => True)); auto.
  - intros _ c m k m' H. injection H as <- <-. reflexivity.
  - intros e _ _ c m k m' H. cbn [exec] in H. destruct (eval late callf c e m); try discriminate. injection H as <- <-. reflexivity.
  - intros a IHa b IHb Hp c m k m' H. cbn [exec plain_returns] in *. apply andb_true_iff in Hp. destruct Hp as [Pa Pb].
    destruct (exec late callf loops c a m) as [[|w] m1|m1| |] eqn:E; cbn in H; try discriminate; [eapply IHb; eassumption|].
    injection H as <- <-. exact (IHa Pa _ _ _ _ E).
  - intros x e _ _ c m k m' H. cbn [exec] in H. destruct (resolve m (env c) x) as [a m1].
    destruct (eval late callf c e m1); try discriminate. injection H as <- <-. reflexivity.
  - intros x _ c m k m' H. cbn [exec] in H. destruct (resolve m (env c) x). injection H as <- <-. reflexivity.
  - intros x f _ _ c m k m' H. cbn [exec] in H. destruct (resolve m (env c) x) as [a m1]. destruct (closure m1 (env c) f). injection H as <- <-. reflexivity.
  - intros e _ a IHa Hp c m k m' H. cbn [exec plain_returns] in *.
    destruct (test late callf c e m) as [[|] m1|m1| |]; cbn in H; try discriminate; [eapply IHa; eassumption|]. injection H as <- <-. reflexivity.
  - intros e _ a IHa b IHb Hp c m k m' H. cbn [exec plain_returns] in *. apply andb_true_iff in Hp. destruct Hp as [Pa Pb].
    destruct (test late callf c e m) as [[|] m1|m1| |]; cbn in H; try discriminate; [eapply IHa|eapply IHb]; eassumption.
  - intros e _ a IHa Hp c m k m' H. cbn [exec plain_returns] in *.
    revert H. generalize (test late callf c e). intros ts H. revert m H. generalize loops at 1.
    intros l. induction l as [|l IH]; intros m H; [discriminate|]. cbn [loop] in H.
    destruct (ts m) as [[|] m1|m1| |]; cbn in H; try discriminate; [|injection H as <- <-; reflexivity].
    destruct (exec late callf loops c a m1) as [[|w] m2|m2| |] eqn:E; cbn in H; try discriminate; [eapply IH, H|].
    injection H as <- <-. exact (IHa Hp _ _ _ _ E).
  - discriminate.
  - intros _ c m k m' H. injection H as <- <-. reflexivity.
Qed.
Lemma call_new_obj n r w vs t d (m : mem) v m' : call true n true r w vs t d m = Ok v m' -> exists a, v = VObj a.
Proof.
  destruct n; cbn [call]; [discriminate|]. destruct w as [p|b]; [discriminate|].
  destruct (obj_at _ b) as [[pr po [[f sc]|]]|]; try discriminate.
  destruct (is_arrow f) eqn:EA; [discriminate|]. cbn [andb].
  destruct (args_bad PS (params f) vs); [discriminate|].
  destruct (match max_depth PS with Some k => _ | None => _ end); [discriminate|].
  destruct (exec _ _ _ _ _ _) as [k m5|m5| |]; cbn; try discriminate. intros H. injection H as <- _.
  destruct k as [|[q|a]]; eauto.
Qed.
Lemma call_new_plain n r b f sc vs t d (m : mem) v m' : sane m -> closure_at m b f sc -> plain_returns (body f) = true ->
  (forall w, In w vs -> okv m w) -> okv m t -> okrcv m r -> okv m (VObj b) ->
  call true n true r (VObj b) vs t d m = Ok v m' ->
  v = VObj (S (length (objs m))) /\ instance_of m' v (VObj b) = true.
Proof.
  intros SN HC HP Hvs Ht Hr Hb. pose proof (sv_call NF true n true r (VObj b) vs t d m SN Hr Hb Hvs Ht) as HV.
  intros E. rewrite E in HV. destruct HV as (SN' & EV & _). revert E.
  destruct n; cbn [call]; [discriminate|].
  set (m1 := add_obj (add_cells m vs) (mkobj [] None None)).
  destruct (obj_at m1 b) as [[pr po [[f' sc']|]]|] eqn:EO; try discriminate.
  apply closure_of_entry in EO.
  assert (f' = f /\ sc' = sc) as [-> ->] by (destruct HC as (o & Ho & Hf), EO as (o' & Ho' & Hf'); rewrite Ho in Ho'; injection Ho' as <-; rewrite Hf in Hf'; now injection Hf' as <- <-).
  destruct (is_arrow f) eqn:EA; [discriminate|]. cbn [andb].
  destruct (args_bad PS (params f) vs); [discriminate|].
  destruct (match max_depth PS with Some k => _ | None => _ end); [discriminate|].
  destruct (sane_entry true m b f sc vs SN HC Hvs) as (S1 & E1 & N1 & T1).
  destruct (entry_facts true b f vs m) as (_ & _ & _ & N & _). specialize (N eq_refl).
  destruct (proto_for_lt m vs b f sc SN HC) as (c0 & p0 & Hc0 & Hp0 & HPF & HPlt).
  rewrite HPF in N. clear HPF. unfold entry_mem in *. fold m1 in S1, E1, N1, T1, N |- *.
  match type of S1 with sane ?mm => set (m4 := mm) in * end.
  assert (L1 : length (objs m1) = S (length (objs m))) by (unfold m1; cbn; rewrite app_length; cbn; lia). rewrite L1.
  destruct (exec true (call true n) n (mkctx (length (objs m) :: rev sc) (VObj (S (length (objs m)))) (S d)) (body f) m4) as [k m5|m5| |] eqn:EX; cbn [FnSpec.bind]; try discriminate.
  intros H. injection H as Hv Hm5. subst m5.
  pose proof (plain_exec _ _ _ _ HP _ _ _ _ EX) as HK. unfold res_of in HK. rewrite HK in Hv. subst v.
  split; [reflexivity|].
  pose proof (sv_stmt NF true (call true n) (sv_call NF true n) n (body f) _ _ S1 (conj N1 (T1 eq_refl) : okctx m4 (mkctx _ _ (S d)))) as KV.
  rewrite EX in KV. destruct KV as (_ & E5 & _).
  apply inst_spec; [exact SN'|].
  destruct (proto_var_kept m m' b f sc SN EV (proj2 (fn_at _ _ _ _) HC)) as [Hf Hp].
  exists f, sc, p0. split; [exact Hf|]. split.
  - rewrite Hp. unfold variable. rewrite own_own_cell, Hc0. cbn [option_map]. rewrite <- readc_cell. unfold readc. now rewrite Hp0.
  - apply inh_one. rewrite getobj_at. destruct (la_old _ _ (ev_later _ _ E5) _ _ N) as (o' & -> & Q & _). exact Q.
Qed.
Lemma exec_return late callf loops c e (m : mem) k m' : exec late callf loops c (SReturn e) m = Ok k m' ->
  exists o, eval late callf c e m = Ok o m' /\ k = Return (val m' o).
Proof.
  cbn [exec]. destruct (eval late callf c e m) as [o m1|m1| |]; cbn; try discriminate. intros H. injection H as <- <-. eauto.
Qed.
Lemma new_object n (e : expr) es (m : mem) th v m' th' : reached m th -> no_arrows (SReturn (ENew e es)) = true ->
  run_more n (SReturn (ENew e es)) th m = Done v m' th' -> exists a, v = VObj a /\ a < length (objs m').
Proof.
  intros HR HA HE.
  assert (HS : scripts [SReturn (ENew e es)] m th m' th') by (econstructor; [exact HE|constructor]).
  assert (HA' : forallb no_arrows [SReturn (ENew e es)] = true) by (cbn [forallb]; now rewrite HA).
  destruct (reached_more NF m th _ m' th' HR HA' HS) as (FS & FC & FP & FI & HO & HO' & E).
  destruct (more_exec NF FS FC FP n _ th m v m' th' HO (fun g Hg => FI g (in_or_app _ _ _ (or_introl Hg))) HE) as (k & HX & Hv & _ & _ & Ov).
  apply exec_return in HX. destruct HX as (o & HX & ->). rewrite eval_eq in HX. cbn [eval1] in HX.
  destruct (eval true (call true n) top e m) as [o1 m1|m1| |]; cbn [FnSpec.bind] in HX; try discriminate.
  destruct (evals true (call true n) top es m1) as [os m2|m2| |]; cbn [FnSpec.bind] in HX; try discriminate.
  destruct (call true n true None _ _ _ _ m2) as [w m3|m3| |] eqn:EC; cbn [FnSpec.bind] in HX; try discriminate.
  injection HX as <- <-. cbn [val res_of] in Hv. subst v.
  destruct (call_new_obj _ _ _ _ _ _ _ _ _ EC) as (a & ->). exists a. split; [reflexivity|]. apply user_lt, Ov.
Qed.
Lemma new_instance n x (es : exprs) (m : mem) th v m' th' b f sc : reached m th ->
  no_arrows (SReturn (ENew (EVar x) es)) = true ->
  variable m glob x = Some (VObj b) -> fn (getobj m b) = Some (f, sc) -> plain_returns (body f) = true ->
  calls_es es = false -> ~ In x (asg_es es) ->
  run_more n (SReturn (ENew (EVar x) es)) th m = Done v m' th' ->
  exists a, v = VObj a /\ length (objs m) <= a < length (objs m') /\ instance_of m' v (VObj b) = true.
Proof.
  intros HR HA Hx Hf HP Hca Has HE.
  assert (HS : scripts [SReturn (ENew (EVar x) es)] m th m' th') by (econstructor; [exact HE|constructor]).
  assert (HA' : forallb no_arrows [SReturn (ENew (EVar x) es)] = true) by (cbn [forallb]; now rewrite HA).
  destruct (reached_more NF m th _ m' th' HR HA' HS) as (FS & FC & FP & FI & HO & HO' & E).
  pose proof (ok_sane _ _ _ HO) as SN.
  destruct (more_exec NF FS FC FP n _ th m v m' th' HO (fun g Hg => FI g (in_or_app _ _ _ (or_introl Hg))) HE) as (k & HX & Hv & _ & _ & Ov).
  apply exec_return in HX. destruct HX as (o & HX & ->). rewrite eval_eq in HX. cbn [eval1] in HX.
  unfold variable in Hx. rewrite own_own_cell in Hx. destruct (own_cell m glob x) as [c|] eqn:Ec; [|discriminate]. cbn [option_map] in Hx.
  injection Hx as Hx. rewrite <- readc_cell in Hx.
  rewrite eval_eq in HX. cbn [eval1] in HX. unfold resolve in HX. cbn [top env first_with] in HX.
  change 0 with glob in HX at 1. rewrite Ec in HX. cbn [FnSpec.bind operand_of] in HX.
  pose proof (ok_ctx _ _ _ HO) as OC.
  destruct (evals true (call true n) top es m) as [os m2|m2| |] eqn:ES; cbn [FnSpec.bind] in HX; try discriminate.
  pose proof (proj1 (proj2 (sv_expr NF true (call true n) (sv_call NF true n))) es top m SN OC) as KV.
  rewrite ES in KV. destruct KV as (S2 & E2 & O2).
  assert (R2 : readc m2 c = readc m c).
  { pose proof (cell_good (PS := PS) glob c x (fun _ => True) False (fun _ _ _ _ => I) (False_ind _)) as G.
    pose proof (proj1 (proj2 (inv_expr _ _ _ _ _ G true (call true n) (False_ind _))) es top m) as K.
    rewrite ES in K. apply K.
    - split; [apply SN|]. split; [pose proof (sn_base _ SN); unfold glob; lia|]. split; [intros []|].
      split; [eapply (wf_bound _ (sn_wf _ SN)), Ec|]. intros a' k' H'. destruct (wf_uniq _ (sn_wf _ SN) _ _ _ _ _ H' Ec). auto.
    - split; [|intros _; split; [exact Has|intros []]]. intros s [<-|[]]. pose proof (sn_base _ SN). lia.
    - rewrite Hca. discriminate. }
  cbn [val] in HX. rewrite R2, Hx in HX.
  destruct (call true n true None _ _ _ _ m2) as [w m3|m3| |] eqn:EC; cbn [FnSpec.bind] in HX; try discriminate.
  injection HX as <- <-. cbn [val res_of] in Hv. subst v.
  pose proof (later_clo _ _ _ _ _ (ev_later _ _ E2) (proj1 (fn_at _ _ _ _) Hf)) as HC2.
  assert (Q1 : forall u, In u (map (val m2) os) -> okv m2 u) by now apply vals_ok.
  assert (Q2 : okv m2 (this_ top)) by apply (user0 _ S2).
  assert (Q3 : okv m2 (VObj b)) by apply (sn_fun _ S2 _ _ _ HC2).
  destruct (call_new_plain n None b f sc _ _ _ m2 w m3 S2 HC2 HP Q1 Q2 Logic.I Q3 EC) as [-> HI].
  exists (S (length (objs m2))). split; [reflexivity|]. split; [|exact HI].
  split; [pose proof (la_objs _ _ (ev_later _ _ E2)); lia|]. apply user_lt, Ov.
Qed.
End After.
