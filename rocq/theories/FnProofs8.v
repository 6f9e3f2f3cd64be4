(** * Programs for which it does not matter when operands are read *)
Require Import ZArith List Bool Lia.
Import ListNotations.
Require Import Verif.FnModel Verif.FnSpec Verif.FnSpec2 Verif.FnProofs Verif.FnProofs2 Verif.FnProofs3 Verif.FnProofs5 Verif.FnProofs6 Verif.FnProofs7.
Local Open Scope nat_scope.

Section Order.
Context {PS : psys}.
Notation V := (value (prim PS)).
Notation vundef := (VPrim (undef PS)).
Notation mem := (@mem PS).
Notation expr := (@expr PS).
Notation exprs := (@exprs PS).
Notation items := (@items PS).
Notation stmt := (@stmt PS).
Notation fundef := (@fundef PS).
Notation operand := (@operand PS).
Notation res := (@res PS).
Notation ctx := (@ctx PS).

Lemma has_in x xs : has x xs = true <-> In x xs.
Proof.
  unfold has. rewrite existsb_exists. split.
  - intros (y & Hy & E). apply Nat.eqb_eq in E. now subst.
  - intros H. exists x. split; [assumption|apply Nat.eqb_refl].
Qed.
Lemma has_notin x xs : has x xs = false -> ~ In x xs.
Proof. intros H Hin. apply has_in in Hin. congruence. Qed.

Variable FS : list fundef.
Hypothesis FS_closed : forall f, In f FS -> incl (funs_s (body f)) FS.

(* all functions in memory are functions of the program *)
Definition gl (m : mem) : Prop := own_inv None (fun f => In f FS) m.

Section Act.
Variable n : nat.
Hypothesis IHn : forall b r v vs t d m, gl m -> call false n b r v vs t d m = call true n b r v vs t d m.

(* what holds while a function with own variables [L] and inner functions [GF] runs *)
Record act (c : ctx) (L : list name) (GF : list fundef) (m : mem) : Prop := {
  ac_gl : gl m;
  ac_env : forall s, In s (env c) -> s < length (objs m);
  ac_own : L = [] \/ exists cur rest, env c = cur :: rest /\ own_inv (Some cur) (fun f => In f GF) m /\
                     (forall x, In x L -> own_cell m cur x <> None) /\
                     (forall f, In f GF -> incl (funs_s (body f)) GF)
}.
Definition ok_funs (L : list name) (GF fs : list fundef) : Prop := incl fs FS /\ (L = [] \/ incl fs GF).
Lemma ok_funs_sub L GF fs fs' : ok_funs L GF fs -> incl fs' fs -> ok_funs L GF fs'.
Proof. intros [H1 H2] H. split; [eapply incl_tran; eassumption|]. destruct H2; [now left|right; eapply incl_tran; eassumption]. Qed.

Definition Gclosed : forall f, In f FS -> forall f', In f' (funs_s (body f)) -> In f' FS.
Proof. intros f H f' H'. exact (FS_closed f H f' H'). Qed.

(* running code of this activation preserves all that *)
Lemma act_keep {A} c L GF m (r : res A) a m' fs :
  act c L GF m -> ok_funs L GF fs ->
  (forall a0 (Gf : fundef -> Prop) (Hc : forall f, Gf f -> forall f', In f' (funs_s (body f)) -> Gf f'),
     own_inv a0 Gf m -> own_pm a0 Gf m (env c) [] fs -> keepsI (own_inv a0 Gf) later m r) ->
  r = Ok a m' -> act c L GF m' /\ later m m'.
Proof.
  intros [H1 H2 H3] [F1 F2] HK E.
  pose proof (HK None (fun f => In f FS) Gclosed H1) as K1. rewrite E in K1.
  assert (K : gl m' /\ later m m').
  { apply K1. split; [assumption|]. intros _ f Hf. now apply F1. }
  destruct K as [Kg Kl]. split; [|assumption]. constructor; [assumption| |].
  - intros s Hs. pose proof (H2 s Hs). pose proof (la_objs _ _ Kl). lia.
  - destruct H3 as [H3|(cur & rest & He & Ho & Hx & Hc)]; [now left|]. destruct F2 as [F2|F2]; [now left|]. right.
    exists cur, rest. split; [assumption|].
    pose proof (HK (Some cur) (fun f => In f GF) (fun f Hf f' Hf' => Hc f Hf f' Hf') Ho) as K2. rewrite E in K2.
    assert (K : own_inv (Some cur) (fun f => In f GF) m' /\ later m m').
    { apply K2. split; [assumption|]. intros _ f Hf. now apply F2. }
    split; [apply K|]. split; [|assumption]. intros x Hx'. apply (la_keep _ _ Kl), Hx, Hx'.
Qed.
Lemma keep_e late c L GF m e o m' : act c L GF m -> ok_funs L GF (funs_e e) ->
  eval late (call late n) c e m = Ok o m' -> act c L GF m' /\ later m m'.
Proof.
  intros HA HF E. apply (act_keep c L GF m _ o m' (funs_e e) HA HF) in E; auto.
  intros a0 Gf Hc HI [P1 P2]. pose proof (own_good a0 Gf Hc) as G.
  apply (proj1 (inv_expr _ _ _ _ _ G late _ (inv_call _ _ _ _ _ G late n)) e c m HI); [split; assumption|auto].
Qed.
Lemma keep_es late c L GF m es o m' : act c L GF m -> ok_funs L GF (funs_es es) ->
  evals late (call late n) c es m = Ok o m' -> act c L GF m' /\ later m m'.
Proof.
  intros HA HF E. apply (act_keep c L GF m _ o m' (funs_es es) HA HF) in E; auto.
  intros a0 Gf Hc HI [P1 P2]. pose proof (own_good a0 Gf Hc) as G.
  apply (proj1 (proj2 (inv_expr _ _ _ _ _ G late _ (inv_call _ _ _ _ _ G late n))) es c m HI); [split; assumption|auto].
Qed.
Lemma keep_is late c L GF m is o m' : act c L GF m -> ok_funs L GF (funs_is is) ->
  evali late (call late n) c is m = Ok o m' -> act c L GF m' /\ later m m'.
Proof.
  intros HA HF E. apply (act_keep c L GF m _ o m' (funs_is is) HA HF) in E; auto.
  intros a0 Gf Hc HI [P1 P2]. pose proof (own_good a0 Gf Hc) as G.
  apply (proj2 (proj2 (inv_expr _ _ _ _ _ G late _ (inv_call _ _ _ _ _ G late n))) is c m HI); [split; assumption|auto].
Qed.
Lemma keep_s late c L GF m s o m' : act c L GF m -> ok_funs L GF (funs_s s) ->
  exec late (call late n) n c s m = Ok o m' -> act c L GF m' /\ later m m'.
Proof.
  intros HA HF E. apply (act_keep c L GF m _ o m' (funs_s s) HA HF) in E; auto.
  intros a0 Gf Hc HI [P1 P2]. pose proof (own_good a0 Gf Hc) as G.
  apply (inv_stmt _ _ _ _ _ G late _ (inv_call _ _ _ _ _ G late n) n Logic.I s c m HI). split; assumption.
Qed.
Lemma act_grow c L GF m m' : act c L GF m -> grow m m' -> act c L GF m'.
Proof.
  intros [H1 H2 H3] HG. constructor.
  - now apply own_grow with m.
  - intros s Hs. pose proof (H2 s Hs). pose proof (gr_objs _ _ HG). lia.
  - destruct H3 as [H3|(cur & rest & He & Ho & Hx & Hc)]; [now left|]. right. exists cur, rest.
    split; [assumption|]. split; [now apply own_grow with m|]. split; [|assumption].
    intros x Hx'. apply (gr_keep _ _ HG), Hx, Hx'.
Qed.

(* the cell of a variable of this activation: [x] in scope [a] and nowhere else *)
Definition ref_of (c : ctx) (L : list name) (m : mem) (x : name) (d : nat) : Prop :=
  exists a, In a (env c) /\ (In x L -> a = hd 0 (env c)) /\ d < length (cells m) /\
            forall a' k, own_cell m a' k = Some d -> a' = a /\ k = x.
Lemma ref_later c L m m' x d : later m m' -> ref_of c L m x d -> ref_of c L m' x d.
Proof.
  intros HL (a & H1 & H2 & H3 & H4). exists a. pose proof (la_cells _ _ HL). repeat split; auto; [lia| |];
    destruct (la_bind _ _ HL _ _ _ H0) as [Q|Q]; try lia; apply (H4 _ _ Q).
Qed.
Lemma ref_resolve c L GF m x : act c L GF m -> env c <> [] ->
  ref_of c L (snd (resolve m (env c) x)) x (fst (resolve m (env c) x)).
Proof.
  intros [H1 H2 H3] Hne. pose proof (proj1 H1) as Hw. unfold resolve.
  destruct (first_with m x (env c)) as [d|] eqn:E; cbn [fst snd].
  - destruct (first_with_in m x (env c) d E) as (a & Ha & Hd).
    exists a. split; [assumption|]. split; [|split; [eapply wf_bound; eassumption|]].
    + intros Hx. destruct H3 as [H3|(cur & rest & He & _ & Hown & _)]; [rewrite H3 in Hx; destruct Hx|].
      rewrite He in E |- *. cbn [first_with hd] in E |- *. pose proof (Hown x Hx) as Hc.
      destruct (own_cell m cur x) as [d'|] eqn:E2; [|congruence]. injection E as ->.
      exact (proj1 (wf_uniq _ Hw _ _ _ _ _ Hd E2)).
    + intros a' k H. eapply (wf_uniq _ Hw); eassumption.
  - exists (last (env c) 0). split; [|split; [|split]].
    + destruct (exists_last Hne) as (l & y & ->). rewrite last_last. apply in_app_iff. right. now left.
    + intros Hx. exfalso. destruct H3 as [->|(cur & rest & He & _ & Hown & _)]; [destruct Hx|].
      rewrite He in E. cbn [first_with] in E. pose proof (Hown x Hx) as Hc. destruct (own_cell m cur x); congruence.
    + rewrite cells_set, app_length. cbn. lia.
    + intros a' k. rewrite own_cell_set. destruct (obj_at m a') as [o|] eqn:Eo; [|discriminate].
      destruct ((a' =? last (env c) 0) && (x =? k)) eqn:Q.
      * apply andb_true_iff in Q. destruct Q as [Q1 Q2]. apply Nat.eqb_eq in Q1, Q2. auto.
      * intros Hb. assert (own_cell m a' k = Some (length (cells m))) as Hc by (unfold own_cell; now rewrite Eo).
        apply (wf_bound _ Hw) in Hc. lia.
Qed.

(* such a variable keeps its value while a text runs for which [still] holds *)
Lemma still_ok {A} c L GF m x d xs cl fs (r : res A) a m' :
  act c L GF m -> ref_of c L m x d -> still L GF FS x xs cl = true -> ok_funs L GF fs ->
  (forall a0 (Gf : fundef -> Prop) (al : Prop) (Hc : forall f, Gf f -> forall f', In f' (funs_s (body f)) -> Gf f')
      (Ha : al -> forall f, Gf f -> ~ In x (asg_s (body f))),
     (cl = true -> al) ->
     cell_inv a0 d x Gf al m -> cell_pm a0 x Gf al m (env c) xs fs -> keepsI (cell_inv a0 d x Gf al) (cell_rel d) m r) ->
  r = Ok a m' -> readc m' d = readc m d.
Proof.
  intros [H1 H2 H3] (a0 & Hin & Hh & Hl & Hu) Hst [F1 F2] HK E.
  unfold still in Hst. apply andb_true_iff in Hst. destruct Hst as [S1 S2].
  apply negb_true_iff in S1. apply has_notin in S1.
  set (G0 := if has x L then GF else FS) in *.
  assert (Ha : cl = true -> forall f, In f G0 -> ~ In x (asg_s (body f))).
  { intros -> f Hf. cbn in S2. rewrite forallb_forall in S2. specialize (S2 f Hf). apply negb_true_iff in S2. now apply has_notin. }
  assert (Hc : forall f, In f G0 -> forall f', In f' (funs_s (body f)) -> In f' G0).
  { intros f Hf f' Hf'. unfold G0 in *. destruct (has x L) eqn:Ex.
    - destruct H3 as [->|(cur & rest & He & Ho & Hx & Hcl)]; [discriminate|]. exact (Hcl f Hf f' Hf').
    - exact (FS_closed f Hf f' Hf'). }
  specialize (HK a0 (fun f => In f G0) (cl = true) Hc Ha (fun q => q)). rewrite E in HK.
  assert (Q : cell_inv a0 d x (fun f => In f G0) (cl = true) m' /\ cell_rel d m m').
  { apply HK.
    - split; [apply H1|]. split; [now apply H2|]. split; [|split; assumption].
      intros _ b f sc Hb Hs. unfold G0. destruct (has x L) eqn:Ex.
      + apply has_in in Ex. destruct H3 as [->|(cur & rest & He & Ho & Hx & Hcl)]; [destruct Ex|].
        rewrite (Hh Ex), He in Hs. apply (proj2 (proj2 Ho) b f sc Hb). exact Hs.
      + apply (proj2 (proj2 H1) b f sc Hb). exact I.
    - split; [assumption|]. intros _. split; [assumption|]. intros _ f Hf. unfold G0. destruct (has x L) eqn:Ex; [|auto].
      apply has_in in Ex. destruct F2 as [->|F2]; [destruct Ex|auto]. }
  apply Q.
Qed.
Lemma still_e late c L GF m x d e o m' : act c L GF m -> ref_of c L m x d ->
  still L GF FS x (asg_e e) (calls_e e) = true -> ok_funs L GF (funs_e e) ->
  eval late (call late n) c e m = Ok o m' -> readc m' d = readc m d.
Proof.
  intros HA HR HS HF E. eapply (still_ok c L GF m x d (asg_e e) (calls_e e) (funs_e e)); eauto.
  intros a0 Gf al Hc Ha Hal HI HP. pose proof (cell_good a0 d x Gf al Hc Ha) as G.
  apply (proj1 (inv_expr _ _ _ _ _ G late _ (inv_call _ _ _ _ _ G late n)) e c m HI HP Hal).
Qed.
Lemma still_es late c L GF m x d es o m' : act c L GF m -> ref_of c L m x d ->
  still L GF FS x (asg_es es) (calls_es es) = true -> ok_funs L GF (funs_es es) ->
  evals late (call late n) c es m = Ok o m' -> readc m' d = readc m d.
Proof.
  intros HA HR HS HF E. eapply (still_ok c L GF m x d (asg_es es) (calls_es es) (funs_es es)); eauto.
  intros a0 Gf al Hc Ha Hal HI HP. pose proof (cell_good a0 d x Gf al Hc Ha) as G.
  apply (proj1 (proj2 (inv_expr _ _ _ _ _ G late _ (inv_call _ _ _ _ _ G late n))) es c m HI HP Hal).
Qed.
Lemma still_is late c L GF m x d is o m' : act c L GF m -> ref_of c L m x d ->
  still L GF FS x (asg_is is) (calls_is is) = true -> ok_funs L GF (funs_is is) ->
  evali late (call late n) c is m = Ok o m' -> readc m' d = readc m d.
Proof.
  intros HA HR HS HF E. eapply (still_ok c L GF m x d (asg_is is) (calls_is is) (funs_is is)); eauto.
  intros a0 Gf al Hc Ha Hal HI HP. pose proof (cell_good a0 d x Gf al Hc Ha) as G.
  apply (proj2 (proj2 (inv_expr _ _ _ _ _ G late _ (inv_call _ _ _ _ _ G late n))) is c m HI HP Hal).
Qed.

(** ** Expressions *)
Definition agree_o (c : ctx) (L : list name) (e : expr) (r0 r1 : res operand) : Prop :=
  match r0 with
  | Ok o m' => exists o' v, r1 = Ok o' m' /\ o = OVal v /\ val m' o' = v /\
               (forall d, o' = ORef d -> exists x, In x (refs e) /\ ref_of c L m' x d)
  | Err m' => r1 = Err m' | Out => r1 = Out | Unk => r1 = Unk
  end.
Definition agree_l (r0 r1 : res (list operand)) : Prop :=
  match r0 with
  | Ok os m' => exists os' vs, r1 = Ok os' m' /\ os = map OVal vs /\ map (val m') os' = vs
  | Err m' => r1 = Err m' | Out => r1 = Out | Unk => r1 = Unk
  end.
Definition agree_i (r0 r1 : res (list (name * operand))) : Prop :=
  match r0 with
  | Ok os m' => exists os' kvs, r1 = Ok os' m' /\ os = map (fun kv => (fst kv, OVal (snd kv))) kvs /\
                map (fun ko => (fst ko, val m' (snd ko))) os' = kvs
  | Err m' => r1 = Err m' | Out => r1 = Out | Unk => r1 = Unk
  end.
Definition eq_e (e : expr) : Prop := forall c L GF m, act c L GF m -> env c <> [] -> ok_funs L GF (funs_e e) ->
  ord_e L GF FS e = true -> agree_o c L e (eval false (call false n) c e m) (eval true (call true n) c e m).
Definition eq_es (es : exprs) : Prop := forall c L GF m, act c L GF m -> env c <> [] -> ok_funs L GF (funs_es es) ->
  ord_es L GF FS es = true -> agree_l (evals false (call false n) c es m) (evals true (call true n) c es m).
Definition eq_is (is : items) : Prop := forall c L GF m, act c L GF m -> env c <> [] -> ok_funs L GF (funs_is is) ->
  ord_is L GF FS is = true -> agree_i (evali false (call false n) c is m) (evali true (call true n) c is m).

Lemma stills_val c L GF m1 m2 e o' xs cl :
  (forall d, o' = ORef d -> exists x, In x (refs e) /\ ref_of c L m1 x d) ->
  stills L GF FS e xs cl = true ->
  (forall x d, ref_of c L m1 x d -> still L GF FS x xs cl = true -> readc m2 d = readc m1 d) ->
  val m2 o' = val m1 o'.
Proof.
  intros Hr Hs Hk. destruct o' as [v|d]; [reflexivity|]. cbn [val].
  destruct (Hr d eq_refl) as (x & Hx & Hd). unfold stills in Hs. rewrite forallb_forall in Hs. eauto.
Qed.
Lemma map_val_OVal (m : mem) vs : map (val m) (map OVal vs) = vs.
Proof. rewrite map_map. apply map_id. Qed.
Lemma noref (c : ctx) L (e : expr) (m : mem) v : forall d : nat, @OVal PS v = ORef d -> exists x, In x (refs e) /\ ref_of c L m x d.
Proof. discriminate. Qed.

Ltac okv := match goal with |- exists _ _, Ok (OVal ?w) ?mm = _ /\ _ => exists (OVal w), w; repeat split; discriminate end.
Ltac fs := match goal with HF : ok_funs _ _ _ |- _ => apply (ok_funs_sub _ _ _ _ HF);
  let a := fresh "a" in let H := fresh "H" in intros a H;
  first [ exact (in_or_app _ _ a (or_introl H)) | exact (in_or_app _ _ a (or_intror H))
        | exact (in_or_app _ _ a (or_intror (in_or_app _ _ a (or_introl H))))
        | exact (in_or_app _ _ a (or_intror (in_or_app _ _ a (or_intror H)))) ] end.
Ltac use H E := match type of H with
  | agree_o _ _ _ ?r0 ?r1 => let o := fresh "o" in let m := fresh "m" in
      destruct r0 as [o m|m| |] eqn:E; cbn [agree_o] in H; [|rewrite H; reflexivity|rewrite H; reflexivity|rewrite H; reflexivity]
  | agree_l ?r0 ?r1 => let o := fresh "os" in let m := fresh "m" in
      destruct r0 as [o m|m| |] eqn:E; cbn [agree_l] in H; [|rewrite H; reflexivity|rewrite H; reflexivity|rewrite H; reflexivity]
  | agree_i ?r0 ?r1 => let o := fresh "os" in let m := fresh "m" in
      destruct r0 as [o m|m| |] eqn:E; cbn [agree_i] in H; [|rewrite H; reflexivity|rewrite H; reflexivity|rewrite H; reflexivity]
  end.

Lemma eq_expr : (forall e, eq_e e) /\ (forall es, eq_es es) /\ (forall is, eq_is is) /\ (forall s : stmt, True) /\ (forall f : fundef, True).
Proof.
  apply (fn_mut PS eq_e eq_es eq_is (fun _ => True) (fun _ => True)); auto.
  - (* ECon *) intros p c L GF m HA Hne HF HO. rewrite !eval_eq. cbn [eval1 agree_o]. okv.
  - (* EVar *) intros x c L GF m HA Hne HF HO. rewrite !eval_eq. cbn [eval1].
    pose proof (ref_resolve c L GF m x HA Hne) as HR.
    destruct (resolve m (env c) x) as [d m1]. cbn [fst snd] in HR. cbn [agree_o operand_of].
    exists (ORef d), (readc m1 d). repeat split; auto. intros d' E. injection E as <-. exists x. split; [now left|assumption].
  - (* EThis *) intros c L GF m HA Hne HF HO. rewrite !eval_eq. cbn [eval1 agree_o]. okv.
  - (* EAsg *) intros x e IH c L GF m HA Hne HF HO. rewrite !eval_eq. cbn [eval1]. change (ok_funs L GF (funs_e e)) in HF.
    pose proof (ref_resolve c L GF m x HA Hne) as HR.
    pose proof (grow_resolve m (env c) x (proj1 (ac_gl _ _ _ _ HA))) as HG.
    destruct (resolve m (env c) x) as [d m1]. cbn [fst snd] in HR, HG.
    pose proof (act_grow _ _ _ _ _ HA HG) as HA1.
    pose proof (IH c L GF m1 HA1 Hne HF HO) as H. use H E.
    destruct H as (o' & v & E1 & -> & Hv & Hr). rewrite E1. cbn [FnSpec.bind agree_o operand_of].
    destruct (keep_e false _ _ _ _ _ _ _ HA1 HF E) as [HA2 HL].
    rewrite Hv. exists (ORef d), (readc (writec m0 d v) d). repeat split.
    intros d' E'. injection E' as <-. exists x. split; [now left|].
    eapply ref_later; [apply write_later|]. eapply ref_later; eassumption.
  - (* EUn *) intros u e IH c L GF m HA Hne HF HO. rewrite !eval_eq. cbn [eval1]. change (ok_funs L GF (funs_e e)) in HF.
    pose proof (IH c L GF m HA Hne HF HO) as H. use H E.
    destruct H as (o' & v & E1 & -> & Hv & Hr). rewrite E1. cbn [FnSpec.bind]. rewrite Hv. cbn [val].
    destruct (un_sem PS u v) as [w|]; cbn [agree_o]; [okv|reflexivity].
  - (* EBin *) intros b x IHx y IHy c L GF m HA Hne HF HO. rewrite !eval_eq. cbn [eval1]. cbn [ord_e] in HO.
    apply andb_true_iff in HO. destruct HO as [HO HS]. apply andb_true_iff in HO. destruct HO as [HO1 HO2].
    assert (HF1 : ok_funs L GF (funs_e x)) by fs. assert (HF2 : ok_funs L GF (funs_e y)) by fs.
    pose proof (IHx c L GF m HA Hne HF1 HO1) as H. use H E.
    destruct H as (o' & v & E1 & -> & Hv & Hr). rewrite E1. cbn [FnSpec.bind].
    destruct (keep_e false _ _ _ _ _ _ _ HA HF1 E) as [HA1 HL1].
    pose proof (IHy c L GF _ HA1 Hne HF2 HO2) as H. use H E2.
    destruct H as (o2' & v2 & E3 & -> & Hv2 & Hr2). rewrite E3. cbn [FnSpec.bind].
    rewrite Hv2, (stills_val c L GF _ _ x o' _ _ Hr HS); [|intros z d Hz Hs; eapply still_e; eassumption].
    rewrite Hv. cbn [val]. destruct (bin_sem PS b v v2) as [w|]; cbn [agree_o]; [okv|reflexivity].
  - (* EAnd *) intros x IHx y IHy c L GF m HA Hne HF HO. rewrite !eval_eq. cbn [eval1]. cbn [ord_e] in HO.
    apply andb_true_iff in HO. destruct HO as [HO1 HO2].
    assert (HF1 : ok_funs L GF (funs_e x)) by fs. assert (HF2 : ok_funs L GF (funs_e y)) by fs.
    pose proof (IHx c L GF m HA Hne HF1 HO1) as H. use H E.
    destruct H as (o' & v & E1 & -> & Hv & Hr). rewrite E1. cbn [FnSpec.bind].
    destruct (keep_e false _ _ _ _ _ _ _ HA HF1 E) as [HA1 HL1]. rewrite Hv. cbn [val].
    destruct (truth PS v); [exact (IHy c L GF _ HA1 Hne HF2 HO2)|]. cbn [agree_o]. okv.
  - (* EOr *) intros x IHx y IHy c L GF m HA Hne HF HO. rewrite !eval_eq. cbn [eval1]. cbn [ord_e] in HO.
    apply andb_true_iff in HO. destruct HO as [HO1 HO2].
    assert (HF1 : ok_funs L GF (funs_e x)) by fs. assert (HF2 : ok_funs L GF (funs_e y)) by fs.
    pose proof (IHx c L GF m HA Hne HF1 HO1) as H. use H E.
    destruct H as (o' & v & E1 & -> & Hv & Hr). rewrite E1. cbn [FnSpec.bind].
    destruct (keep_e false _ _ _ _ _ _ _ HA HF1 E) as [HA1 HL1]. rewrite Hv. cbn [val].
    destruct (truth PS v); [|exact (IHy c L GF _ HA1 Hne HF2 HO2)]. cbn [agree_o]. okv.
  - (* ECond *) intros x IHx y IHy z IHz c L GF m HA Hne HF HO. rewrite !eval_eq. cbn [eval1]. cbn [ord_e] in HO.
    apply andb_true_iff in HO. destruct HO as [HO HO3]. apply andb_true_iff in HO. destruct HO as [HO1 HO2].
    assert (HF1 : ok_funs L GF (funs_e x)) by fs. assert (HF2 : ok_funs L GF (funs_e y)) by fs.
    assert (HF3 : ok_funs L GF (funs_e z)) by fs.
    pose proof (IHx c L GF m HA Hne HF1 HO1) as H. use H E.
    destruct H as (o' & v & E1 & -> & Hv & Hr). rewrite E1. cbn [FnSpec.bind].
    destruct (keep_e false _ _ _ _ _ _ _ HA HF1 E) as [HA1 HL1]. rewrite Hv. cbn [val].
    destruct (truth PS v).
    + pose proof (IHy c L GF _ HA1 Hne HF2 HO2) as H. destruct (eval false (call false n) c y m0) as [oy my|my| |]; cbn [agree_o] in *; auto.
      destruct H as (o2 & v2 & E2 & Ho & Hv2 & Hr2). exists o2, v2. repeat split; auto.
      intros d Hd. destruct (Hr2 d Hd) as (w & Hw & Hw2). exists w. split; [|assumption]. cbn [refs]. apply in_app_iff. now left.
    + pose proof (IHz c L GF _ HA1 Hne HF3 HO3) as H. destruct (eval false (call false n) c z m0) as [oy my|my| |]; cbn [agree_o] in *; auto.
      destruct H as (o2 & v2 & E2 & Ho & Hv2 & Hr2). exists o2, v2. repeat split; auto.
      intros d Hd. destruct (Hr2 d Hd) as (w & Hw & Hw2). exists w. split; [|assumption]. cbn [refs]. apply in_app_iff. now right.
  - (* EComma *) intros x IHx y IHy c L GF m HA Hne HF HO. rewrite !eval_eq. cbn [eval1]. cbn [ord_e] in HO.
    apply andb_true_iff in HO. destruct HO as [HO1 HO2].
    assert (HF1 : ok_funs L GF (funs_e x)) by fs. assert (HF2 : ok_funs L GF (funs_e y)) by fs.
    pose proof (IHx c L GF m HA Hne HF1 HO1) as H. use H E.
    destruct H as (o' & v & E1 & -> & Hv & Hr). rewrite E1. cbn [FnSpec.bind].
    destruct (keep_e false _ _ _ _ _ _ _ HA HF1 E) as [HA1 HL1].
    exact (IHy c L GF _ HA1 Hne HF2 HO2).
  - (* EVoid *) intros x IHx c L GF m HA Hne HF HO. rewrite !eval_eq. cbn [eval1].
    pose proof (IHx c L GF m HA Hne HF HO) as H. use H E.
    destruct H as (o' & v & E1 & -> & Hv & Hr). rewrite E1. cbn [FnSpec.bind agree_o]. okv.
  - (* EFun *) intros f _ c L GF m HA Hne HF HO. rewrite !eval_eq. cbn [eval1].
    destruct (closure m (env c) f) as [v m1]. cbn [agree_o]. okv.
  - (* ECall *) intros e IHe es IHs c L GF m HA Hne HF HO. rewrite !eval_eq. cbn [eval1].
    change (ord_e L GF FS e && ord_es L GF FS es && stills L GF FS e (asg_es es) (calls_es es) = true) in HO.
    change (ok_funs L GF (funs_e e ++ funs_es es)) in HF.
    apply andb_true_iff in HO. destruct HO as [HO HS]. apply andb_true_iff in HO. destruct HO as [HO1 HO2].
    assert (HF1 : ok_funs L GF (funs_e e)) by fs. assert (HF2 : ok_funs L GF (funs_es es)) by fs.
    pose proof (IHe c L GF m HA Hne HF1 HO1) as H. use H E.
    destruct H as (o' & v & E1 & -> & Hv & Hr). rewrite E1. cbn [FnSpec.bind].
    destruct (keep_e false _ _ _ _ _ _ _ HA HF1 E) as [HA1 HL1].
    pose proof (IHs c L GF _ HA1 Hne HF2 HO2) as H. use H E2.
    destruct H as (os' & vs & E3 & -> & Hv2). rewrite E3. cbn [FnSpec.bind].
    destruct (keep_es false _ _ _ _ _ _ _ HA1 HF2 E2) as [HA2 HL2].
    rewrite Hv2, (stills_val c L GF _ _ e o' _ _ Hr HS); [|intros z d Hz Hs; eapply still_es; eassumption].
    rewrite Hv, map_val_OVal. cbn [val]. rewrite IHn by (apply HA2).
    destruct (call true n false None v vs (this_ c) (depth c) m1); cbn [FnSpec.bind agree_o]; auto. okv.
  - (* EMeth *) intros e IHe k es IHs c L GF m HA Hne HF HO. rewrite !eval_eq. cbn [eval1].
    change (ord_e L GF FS e && ord_es L GF FS es = true) in HO.
    change (ok_funs L GF (funs_e e ++ funs_es es)) in HF.
    apply andb_true_iff in HO. destruct HO as [HO1 HO2].
    assert (HF1 : ok_funs L GF (funs_e e)) by fs. assert (HF2 : ok_funs L GF (funs_es es)) by fs.
    pose proof (IHe c L GF m HA Hne HF1 HO1) as H. use H E.
    destruct H as (o' & v & E1 & -> & Hv & Hr). rewrite E1. cbn [FnSpec.bind].
    destruct (keep_e false _ _ _ _ _ _ _ HA HF1 E) as [HA1 HL1]. rewrite Hv. cbn [val].
    destruct (receiver m0 v) as [[t m2]|] eqn:ER; [|reflexivity].
    destruct (member m2 v k) as [f|]; [|reflexivity].
    assert (HA2 : act c L GF m2) by (eapply act_grow; [exact HA1|]; eapply grow_receiver; [apply HA1|eassumption]).
    pose proof (IHs c L GF _ HA2 Hne HF2 HO2) as H. use H E2.
    destruct H as (os' & vs & E3 & -> & Hv2). rewrite E3. cbn [FnSpec.bind].
    destruct (keep_es false _ _ _ _ _ _ _ HA2 HF2 E2) as [HA3 HL3].
    rewrite Hv2, map_val_OVal. rewrite IHn by (apply HA3).
    destruct (call true n false (Some t) f vs (this_ c) (depth c) m1); cbn [FnSpec.bind agree_o]; auto. okv.
  - (* ENew *) intros e IHe es IHs c L GF m HA Hne HF HO. rewrite !eval_eq. cbn [eval1].
    change (ord_e L GF FS e && ord_es L GF FS es && stills L GF FS e (asg_es es) (calls_es es) = true) in HO.
    change (ok_funs L GF (funs_e e ++ funs_es es)) in HF.
    apply andb_true_iff in HO. destruct HO as [HO HS]. apply andb_true_iff in HO. destruct HO as [HO1 HO2].
    assert (HF1 : ok_funs L GF (funs_e e)) by fs. assert (HF2 : ok_funs L GF (funs_es es)) by fs.
    pose proof (IHe c L GF m HA Hne HF1 HO1) as H. use H E.
    destruct H as (o' & v & E1 & -> & Hv & Hr). rewrite E1. cbn [FnSpec.bind].
    destruct (keep_e false _ _ _ _ _ _ _ HA HF1 E) as [HA1 HL1].
    pose proof (IHs c L GF _ HA1 Hne HF2 HO2) as H. use H E2.
    destruct H as (os' & vs & E3 & -> & Hv2). rewrite E3. cbn [FnSpec.bind].
    destruct (keep_es false _ _ _ _ _ _ _ HA1 HF2 E2) as [HA2 HL2].
    rewrite Hv2, (stills_val c L GF _ _ e o' _ _ Hr HS); [|intros z d Hz Hs; eapply still_es; eassumption].
    rewrite Hv, map_val_OVal. cbn [val]. rewrite IHn by (apply HA2).
    destruct (call true n true None v vs (this_ c) (depth c) m1); cbn [FnSpec.bind agree_o]; auto. okv.
  - (* EGet *) intros e IH k c L GF m HA Hne HF HO. rewrite !eval_eq. cbn [eval1]. change (ok_funs L GF (funs_e e)) in HF.
    pose proof (IH c L GF m HA Hne HF HO) as H. use H E.
    destruct H as (o' & v & E1 & -> & Hv & Hr). rewrite E1. cbn [FnSpec.bind]. rewrite Hv. cbn [val].
    destruct (member m0 v k) as [w|]; cbn [agree_o]; [okv|reflexivity].
  - (* ESet *) intros x IHx k y IHy c L GF m HA Hne HF HO. rewrite !eval_eq. cbn [eval1]. cbn [ord_e] in HO.
    apply andb_true_iff in HO. destruct HO as [HO HS]. apply andb_true_iff in HO. destruct HO as [HO1 HO2].
    assert (HF1 : ok_funs L GF (funs_e x)) by fs. assert (HF2 : ok_funs L GF (funs_e y)) by fs.
    pose proof (IHx c L GF m HA Hne HF1 HO1) as H. use H E.
    destruct H as (o' & v & E1 & -> & Hv & Hr). rewrite E1. cbn [FnSpec.bind].
    destruct (keep_e false _ _ _ _ _ _ _ HA HF1 E) as [HA1 HL1].
    pose proof (IHy c L GF _ HA1 Hne HF2 HO2) as H. use H E2.
    destruct H as (o2' & v2 & E3 & -> & Hv2 & Hr2). rewrite E3. cbn [FnSpec.bind].
    rewrite Hv2, (stills_val c L GF _ _ x o' _ _ Hr HS); [|intros z d Hz Hs; eapply still_e; eassumption].
    rewrite Hv. cbn [val]. destruct (set_member m1 v k v2) as [w|]; cbn [agree_o]; [okv|reflexivity].
  - (* EObj *) intros is IH c L GF m HA Hne HF HO. rewrite !eval_eq. cbn [eval1].
    pose proof (IH c L GF m HA Hne HF HO) as H. use H E.
    destruct H as (os' & kvs & E1 & -> & Hv). rewrite E1. cbn [FnSpec.bind]. rewrite Hv.
    assert (HM : map (fun ko : name * operand => (fst ko, val m0 (snd ko))) (map (fun kv => (fst kv, OVal (snd kv))) kvs) = kvs).
    { rewrite map_map. rewrite <- (map_id kvs) at 2. apply map_ext. intros [k w]. reflexivity. }
    rewrite HM. destruct (literal m0 kvs) as [v m2]. cbn [agree_o]. okv.
  - (* EInst *) intros x e IH c L GF m HA Hne HF HO. rewrite !eval_eq. cbn [eval1]. change (ok_funs L GF (funs_e e)) in HF.
    cbn [ord_e] in HO. apply andb_true_iff in HO. destruct HO as [HO HS].
    pose proof (ref_resolve c L GF m x HA Hne) as HR.
    pose proof (grow_resolve m (env c) x (proj1 (ac_gl _ _ _ _ HA))) as HG.
    destruct (resolve m (env c) x) as [d m1]. cbn [fst snd] in HR, HG.
    pose proof (act_grow _ _ _ _ _ HA HG) as HA1.
    pose proof (IH c L GF m1 HA1 Hne HF HO) as H. use H E.
    destruct H as (o' & v & E1 & -> & Hv & Hr). rewrite E1. cbn [FnSpec.bind operand_of val]. rewrite Hv.
    assert (Hd : readc m0 d = readc m1 d) by (eapply still_e; eassumption).
    rewrite Hd. cbn [agree_o]. okv.
  - (* Enil *) intros c L GF m HA Hne HF HO. rewrite !evals_eq. cbn [evals1 agree_l]. exists [], []. auto.
  - (* Econs *) intros e IHe es IHs c L GF m HA Hne HF HO. rewrite !evals_eq. cbn [evals1].
    change (ord_e L GF FS e && ord_es L GF FS es && stills L GF FS e (asg_es es) (calls_es es) = true) in HO.
    change (ok_funs L GF (funs_e e ++ funs_es es)) in HF.
    apply andb_true_iff in HO. destruct HO as [HO HS]. apply andb_true_iff in HO. destruct HO as [HO1 HO2].
    assert (HF1 : ok_funs L GF (funs_e e)) by fs. assert (HF2 : ok_funs L GF (funs_es es)) by fs.
    pose proof (IHe c L GF m HA Hne HF1 HO1) as H. use H E.
    destruct H as (o' & v & E1 & -> & Hv & Hr). rewrite E1. cbn [FnSpec.bind].
    destruct (keep_e false _ _ _ _ _ _ _ HA HF1 E) as [HA1 HL1].
    pose proof (IHs c L GF _ HA1 Hne HF2 HO2) as H. use H E2.
    destruct H as (os' & vs & E3 & -> & Hv2). rewrite E3. cbn [FnSpec.bind agree_l].
    exists (o' :: os'), (v :: vs). repeat split. cbn [map].
    rewrite Hv2, (stills_val c L GF _ _ e o' _ _ Hr HS); [now rewrite Hv|intros z d Hz Hs; eapply still_es; eassumption].
  - (* Inil *) intros c L GF m HA Hne HF HO. rewrite !evali_eq. cbn [evali1 agree_i]. exists [], []. auto.
  - (* Icons *) intros k e IHe es IHs c L GF m HA Hne HF HO. rewrite !evali_eq. cbn [evali1].
    change (ord_e L GF FS e && ord_is L GF FS es && stills L GF FS e (asg_is es) (calls_is es) = true) in HO.
    change (ok_funs L GF (funs_e e ++ funs_is es)) in HF.
    apply andb_true_iff in HO. destruct HO as [HO HS]. apply andb_true_iff in HO. destruct HO as [HO1 HO2].
    assert (HF1 : ok_funs L GF (funs_e e)) by fs. assert (HF2 : ok_funs L GF (funs_is es)) by fs.
    pose proof (IHe c L GF m HA Hne HF1 HO1) as H. use H E.
    destruct H as (o' & v & E1 & -> & Hv & Hr). rewrite E1. cbn [FnSpec.bind].
    destruct (keep_e false _ _ _ _ _ _ _ HA HF1 E) as [HA1 HL1].
    pose proof (IHs c L GF _ HA1 Hne HF2 HO2) as H. use H E2.
    destruct H as (os' & vs & E3 & -> & Hv2). rewrite E3. cbn [FnSpec.bind agree_i].
    exists ((k, o') :: os'), ((k, v) :: vs). repeat split. cbn [map fst snd].
    rewrite Hv2, (stills_val c L GF _ _ e o' _ _ Hr HS); [now rewrite Hv|intros z d Hz Hs; eapply still_is; eassumption].
Qed.

(** ** Statements *)
Lemma eq_test e c L GF m : act c L GF m -> env c <> [] -> ok_funs L GF (funs_e e) -> ord_e L GF FS e = true ->
  test false (call false n) c e m = test true (call true n) c e m.
Proof.
  intros HA Hne HF HO. unfold test. pose proof (proj1 eq_expr e c L GF m HA Hne HF HO) as H.
  destruct (eval false (call false n) c e m) as [o m1|m1| |]; cbn [agree_o] in H; [|now rewrite H..].
  destruct H as (o' & v & -> & -> & Hv & _). cbn [FnSpec.bind]. now rewrite Hv.
Qed.
Lemma test_keep c L GF m e (b : bool) m' : act c L GF m -> ok_funs L GF (funs_e e) ->
  test false (call false n) c e m = Ok b m' -> act c L GF m'.
Proof.
  intros HA HF. unfold test. destruct (eval false (call false n) c e m) as [o m1|m1| |] eqn:E; try discriminate.
  cbn [FnSpec.bind]. intros Q. injection Q as <- <-. exact (proj1 (keep_e false _ _ _ _ _ _ _ HA HF E)).
Qed.
Definition eq_s (st : stmt) : Prop := forall c L GF m, act c L GF m -> env c <> [] -> ok_funs L GF (funs_s st) ->
  ord_s L GF FS st = true -> exec false (call false n) n c st m = exec true (call true n) n c st m.
Lemma eq_loop e a (Ha : eq_s a) c L GF : env c <> [] -> ok_funs L GF (funs_e e) -> ok_funs L GF (funs_s a) ->
  ord_e L GF FS e = true -> ord_s L GF FS a = true ->
  forall k m, act c L GF m ->
  loop k (test false (call false n) c e) (exec false (call false n) n c a) m =
  loop k (test true (call true n) c e) (exec true (call true n) n c a) m.
Proof.
  intros Hne HF1 HF2 HO1 HO2. induction k as [|k IH]; intros m HA; [reflexivity|]. cbn [loop].
  rewrite <- (eq_test e c L GF m HA Hne HF1 HO1).
  destruct (test false (call false n) c e m) as [b m1|m1| |] eqn:E; try reflexivity. cbn [FnSpec.bind].
  pose proof (test_keep _ _ _ _ _ _ _ HA HF1 E) as HA1. destruct b; [|reflexivity].
  rewrite <- (Ha c L GF m1 HA1 Hne HF2 HO2).
  destruct (exec false (call false n) n c a m1) as [r m2|m2| |] eqn:E2; try reflexivity. cbn [FnSpec.bind].
  destruct r; [|reflexivity]. apply IH. exact (proj1 (keep_s false _ _ _ _ _ _ _ HA1 HF2 E2)).
Qed.
Lemma eq_stmt : forall st, eq_s st.
Proof.
  pose proof (proj1 eq_expr) as HE.
  apply (stmt_mut PS (fun _ => True) (fun _ => True) (fun _ => True) eq_s (fun _ => True)); auto.
  - intros c L GF m HA Hne HF HO. reflexivity.
  - intros e _ c L GF m HA Hne HF HO. cbn [exec]. pose proof (HE e c L GF m HA Hne HF HO) as H. use H E.
    destruct H as (o' & v & -> & -> & Hv & _). reflexivity.
  - intros a IHa b IHb c L GF m HA Hne HF HO. cbn [exec].
    apply andb_true_iff in HO. destruct HO as [HO1 HO2].
    assert (HF1 : ok_funs L GF (funs_s a)) by fs. assert (HF2 : ok_funs L GF (funs_s b)) by fs.
    rewrite <- (IHa c L GF m HA Hne HF1 HO1).
    destruct (exec false (call false n) n c a m) as [r m2|m2| |] eqn:E2; try reflexivity. cbn [FnSpec.bind].
    destruct r; [|reflexivity]. apply (IHb c L GF); auto. exact (proj1 (keep_s false _ _ _ _ _ _ _ HA HF1 E2)).
  - intros x e _ c L GF m HA Hne HF HO. cbn [exec].
    change (ok_funs L GF (funs_e e)) in HF. change (ord_e L GF FS e = true) in HO.
    pose proof (grow_resolve m (env c) x (proj1 (ac_gl _ _ _ _ HA))) as HG.
    destruct (resolve m (env c) x) as [d m1]. cbn [fst snd] in HG.
    pose proof (act_grow _ _ _ _ _ HA HG) as HA1.
    pose proof (HE e c L GF m1 HA1 Hne HF HO) as H. use H E.
    destruct H as (o' & v & -> & -> & Hv & _). cbn [FnSpec.bind]. now rewrite Hv.
  - intros x c L GF m HA Hne HF HO. reflexivity.
  - intros x f _ c L GF m HA Hne HF HO. reflexivity.
  - intros e _ a IHa c L GF m HA Hne HF HO. cbn [exec].
    apply andb_true_iff in HO. destruct HO as [HO1 HO2].
    assert (HF1 : ok_funs L GF (funs_e e)) by fs. assert (HF2 : ok_funs L GF (funs_s a)) by fs.
    rewrite <- (eq_test e c L GF m HA Hne HF1 HO1).
    destruct (test false (call false n) c e m) as [b m1|m1| |] eqn:E; try reflexivity. cbn [FnSpec.bind].
    pose proof (test_keep _ _ _ _ _ _ _ HA HF1 E) as HA1. destruct b; [|reflexivity]. now apply (IHa c L GF).
  - intros e _ a IHa b IHb c L GF m HA Hne HF HO. cbn [exec].
    apply andb_true_iff in HO. destruct HO as [HO HO3]. apply andb_true_iff in HO. destruct HO as [HO1 HO2].
    assert (HF1 : ok_funs L GF (funs_e e)) by fs. assert (HF2 : ok_funs L GF (funs_s a)) by fs.
    assert (HF3 : ok_funs L GF (funs_s b)) by fs.
    rewrite <- (eq_test e c L GF m HA Hne HF1 HO1).
    destruct (test false (call false n) c e m) as [t m1|m1| |] eqn:E; try reflexivity. cbn [FnSpec.bind].
    pose proof (test_keep _ _ _ _ _ _ _ HA HF1 E) as HA1. destruct t; [now apply (IHa c L GF)|now apply (IHb c L GF)].
  - intros e _ a IHa c L GF m HA Hne HF HO. cbn [exec].
    apply andb_true_iff in HO. destruct HO as [HO1 HO2].
    assert (HF1 : ok_funs L GF (funs_e e)) by fs. assert (HF2 : ok_funs L GF (funs_s a)) by fs.
    now apply eq_loop with L GF.
  - intros e _ c L GF m HA Hne HF HO. cbn [exec]. pose proof (HE e c L GF m HA Hne HF HO) as H. use H E.
    destruct H as (o' & v & -> & -> & Hv & _). cbn [FnSpec.bind]. now rewrite Hv.
  - intros c L GF m HA Hne HF HO. reflexivity.
Qed.
End Act.

(** ** Calls *)
Lemma binding_fold_all l ps k : In k (map fst l) \/ binding k ps <> None -> binding k (fold_left rebind l ps) <> None.
Proof.
  revert ps. induction l as [|[k1 c1] l IH]; intros ps H; cbn [fold_left].
  - destruct H as [[]|H]. assumption.
  - apply IH. rewrite binding_rebind. destruct (Nat.eqb_spec k1 k) as [->|Hn]; [right; discriminate|].
    destruct H as [[H|H]|H]; [cbn in H; congruence|now left|now right].
Qed.
Lemma locals_bound xs sa (m : mem) k : sa < length (objs m) -> In k xs \/ own_cell m sa k <> None ->
  own_cell (fold_left (fun mm x => set_prop mm sa x vundef) xs m) sa k <> None.
Proof.
  revert m. induction xs as [|x xs IH]; intros m Hs H; cbn [fold_left].
  - destruct H as [[]|H]. assumption.
  - apply IH; [now rewrite objs_set_length|]. rewrite own_cell_set.
    destruct (obj_at m sa) as [o|] eqn:E; [|apply nth_error_None in E; lia].
    rewrite Nat.eqb_refl. cbn [andb]. destruct (Nat.eqb_spec x k) as [->|Hn]; [right; discriminate|].
    destruct H as [[H|H]|H]; [congruence|now left|right]. unfold own_cell in H. now rewrite E in H.
Qed.
Lemma entry_own isnew a f vs (m : mem) x : In x (params f ++ fun_locals f) ->
  own_cell (entry_mem isnew a f vs m) (length (objs m)) x <> None.
Proof.
  intros Hx. unfold entry_mem, with_locals. set (m1 := add_obj (add_cells m vs) (mkobj [] None None)).
  set (m2 := if isnew then _ else m1).
  assert (L1 : length (objs m1) = S (length (objs m))) by (unfold m1; cbn; rewrite app_length; cbn; lia).
  assert (L2 : length (objs m) < length (objs m2)) by (unfold m2; destruct isnew; cbn [add_obj objs]; rewrite ?app_length, L1; lia).
  apply locals_bound; [now rewrite objs_params_length|].
  apply in_app_iff in Hx. destruct Hx as [Hx|Hx]; [right|now left].
  unfold own_cell. rewrite obj_at_params by assumption. rewrite Nat.eqb_refl. cbn [props].
  apply binding_fold_all. left. 
  assert (Q : forall (l : list name) b, map fst (combine l (seq b (length l))) = l)
    by (induction l as [|y l IH]; intros b; [reflexivity|]; cbn [length seq combine map fst]; now rewrite IH).
  now rewrite Q.
Qed.

Hypothesis FS_ord : forall f, In f FS -> ord_s (params f ++ fun_locals f) (funs_s (body f)) FS (body f) = true.

Lemma eq_call n : forall b r v vs t d m, gl m -> call false n b r v vs t d m = call true n b r v vs t d m.
Proof.
  induction n as [|n IH]; intros b r v vs t d m Hg; [reflexivity|]. cbn [call].
  destruct v as [p|a]; [reflexivity|].
  set (m1 := add_obj (add_cells m vs) (mkobj [] None None)).
  destruct (obj_at m1 a) as [[pr po [[f sc]|]]|] eqn:EO; try reflexivity.
  destruct (is_arrow f && _); [reflexivity|].
  destruct (args_bad PS (params f) vs); [reflexivity|].
  destruct (match max_depth PS with Some k => _ | None => _ end); [reflexivity|].
  assert (HC : closure_at m a f sc).
  { unfold closure_at. exists (mkobj pr po (Some (f, sc))). split; [|reflexivity].
    unfold obj_at, m1 in EO. cbn [add_obj add_cells objs] in EO.
    destruct (Nat.lt_ge_cases a (length (objs m))) as [H|H].
    - now rewrite nth_error_app1 in EO by assumption.
    - rewrite nth_error_app2 in EO by assumption. destruct (a - length (objs m)) as [|[|]]; discriminate EO. }
  assert (Hf : In f FS) by (apply (proj2 (proj2 Hg) a f sc HC); exact I).
  destruct (g_enter _ _ _ _ _ (own_good None (fun f => In f FS) Gclosed) I m b a f sc vs Hg HC) as (H1 & H2 & [H3 _]).
  set (t' := if is_arrow f then _ else _).
  set (c := mkctx (length (objs m) :: rev sc) t' (S d)).
  assert (HA : act c (params f ++ fun_locals f) (funs_s (body f)) (entry_mem b a f vs m)).
  { constructor; [exact H1|exact H3|]. right. exists (length (objs m)), (rev sc). split; [reflexivity|].
    split; [|split].
    - split; [apply H1|]. split; [apply H3; now left|]. intros a' f' sc' H' Hs'. exfalso. cbn [scoped] in Hs'.
      pose proof (grow_closure _ _ _ _ _ (grow_entry b a f vs m (proj1 Hg)) H') as H''.
      pose proof (wf_scope _ (proj1 Hg) _ _ _ H'' _ Hs'). lia.
    - intros x Hx. now apply entry_own.
    - intros f' Hf'. now apply funs_s_closed. }
  assert (HF : ok_funs (params f ++ fun_locals f) (funs_s (body f)) (funs_s (body f))).
  { split; [now apply FS_closed|]. right. apply incl_refl. }
  pose proof (eq_stmt n IH (body f) c _ _ _ HA ltac:(discriminate) HF (FS_ord f Hf)) as E.
  unfold entry_mem in E. fold m1 in E. now rewrite E.
Qed.
End Order.

Lemma in_order_same {PS : psys} n (p : @stmt PS) : in_order fun_locals p = true -> program false n p = program true n p.
Proof.
  intros H. unfold in_order in H. apply andb_true_iff in H. destruct H as [H1 H2]. rewrite forallb_forall in H2.
  pose proof (fun f (Hf : In f (funs_s p)) => funs_s_closed p f Hf) as FC.
  pose proof (eq_call (funs_s p) FC H2) as EC.
  assert (HA : act (funs_s p) (mkctx [0] (VObj 0) 1) [] [] (@mem0 PS)).
  { constructor; [| |now left].
    - split; [apply wf_mem0|]. split; [exact I|]. intros a f sc (o & Ho & Hf). exfalso.
      unfold obj_at, mem0 in Ho. cbn [objs] in Ho.
      repeat (destruct a as [|a]; [cbn in Ho; injection Ho as <-; discriminate Hf|]; cbn [nth_error] in Ho).
      destruct a; discriminate Ho.
    - intros s [<-|[]]. cbn. lia. }
  unfold program.
  rewrite (eq_stmt (funs_s p) FC n (EC n) p (mkctx [0] (VObj 0) 1) [] [] mem0 HA ltac:(discriminate) (conj (incl_refl _) (or_introl eq_refl)) H1).
  reflexivity.
Qed.
