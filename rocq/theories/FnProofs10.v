(** * Values, scopes and prototypes: what every run keeps intact *)
Require Import ZArith List Bool Lia.
Import ListNotations.
Require Import Verif.FnModel Verif.FnSpec Verif.FnSpec2 Verif.FnProofs Verif.FnProofs2 Verif.FnProofs3 Verif.FnProofs5 Verif.FnProofs6.
Local Open Scope nat_scope.

Section Sane.
Context {PS : psys}.
Notation V := (value (prim PS)).
Notation vundef := (VPrim (undef PS)).
Notation mem := (@mem PS).
Notation expr := (@expr PS).
Notation exprs := (@exprs PS).
Notation items := (@items PS).
Notation stmt := (@stmt PS).
Notation fundef := (@fundef PS).
Notation obj := (@obj PS).
Notation operand := (@operand PS).
Notation res := (@res PS).
Notation ctx := (@ctx PS).
Notation completion := (@completion PS).
Hypothesis NF : no_forging PS.

(* objects that a program can refer to; scopes of calls; scopes *)
Definition user (m : mem) (a : nat) : Prop := exists o, obj_at m a = Some o /\ (proto o <> None \/ a < 6).
Definition activation (m : mem) (a : nat) : Prop := 6 <= a /\ exists o, obj_at m a = Some o /\ proto o = None /\ fn o = None.
Definition scope (m : mem) (a : nat) : Prop := (a = 0 /\ user m a) \/ activation m a.
Definition okv (m : mem) (v : V) : Prop := match v with VPrim _ => True | VObj a => user m a end.
Definition okenv (m : mem) (en : list nat) : Prop := (forall s, In s en -> scope m s) /\ exists r, en = r ++ [0].

Record sane (m : mem) : Prop := {
  sn_wf : wf m;
  sn_val : forall c v, nth_error (cells m) c = Some v -> okv m v;
  sn_fun : forall a f sc, closure_at m a f sc -> 6 <= a /\ user m a /\ okenv m (rev sc) /\
             exists c p, own_cell m a prototype = Some c /\ nth_error (cells m) c = Some (VObj p);
  sn_proto : forall a o p, obj_at m a = Some o -> proto o = Some p -> p < a \/ (a = 0 /\ p = 1);
  sn_one : forall o, obj_at m 1 = Some o -> proto o = None;
  sn_base : 6 <= length (objs m)
}.
Record ev (m m' : mem) : Prop := {
  ev_later : later m m';
  ev_act : forall a k, activation m a -> own_cell m' a k = own_cell m a k;
  ev_pro : forall a f sc c, closure_at m a f sc -> own_cell m a prototype = Some c ->
             own_cell m' a prototype = Some c /\ nth_error (cells m') c = nth_error (cells m) c
}.
Lemma later_act (m m' : mem) a : later m m' -> activation m a -> activation m' a.
Proof.
  intros L [H (o & Ho & Hp & Hf)]. split; [exact H|]. destruct (la_old _ _ L _ _ Ho) as (o' & Ho' & Hp' & Hf').
  exists o'. repeat split; congruence.
Qed.
Lemma later_clo (m m' : mem) a f sc : later m m' -> closure_at m a f sc -> closure_at m' a f sc.
Proof.
  intros L (o & Ho & Hf). destruct (la_old _ _ L _ _ Ho) as (o' & Ho' & Hp' & Hf'). exists o'. split; congruence.
Qed.
Lemma later_user (m m' : mem) a : later m m' -> user m a -> user m' a.
Proof.
  intros L (o & Ho & H). destruct (la_old _ _ L _ _ Ho) as (o' & Ho' & Hp' & Hf'). exists o'. split; [exact Ho'|]. now rewrite Hp'.
Qed.
Lemma later_scope (m m' : mem) a : later m m' -> scope m a -> scope m' a.
Proof. intros L [[H1 H2]|H]; [left; split; [exact H1|]; eapply later_user; eassumption|right; eapply later_act; eassumption]. Qed.
Lemma later_okv (m m' : mem) v : later m m' -> okv m v -> okv m' v.
Proof. intros L. destruct v; cbn; [auto|]. now apply later_user. Qed.
Lemma later_env (m m' : mem) en : later m m' -> okenv m en -> okenv m' en.
Proof. intros L [H1 H2]. split; [|exact H2]. intros s Hs. eapply later_scope; eauto. Qed.
Lemma ev_refl (m : mem) : ev m m.
Proof. constructor; auto. apply later_refl. Qed.
Lemma ev_trans (a b c : mem) : ev a b -> ev b c -> ev a c.
Proof.
  intros [L1 A1 P1] [L2 A2 P2]. constructor.
  - eapply later_trans; eassumption.
  - intros x k H. rewrite A2 by (eapply later_act; eassumption). now apply A1.
  - intros x f sc d Hc Hd. destruct (P1 _ _ _ _ Hc Hd) as [Q1 Q2].
    destruct (P2 x f sc d (later_clo _ _ _ _ _ L1 Hc) Q1) as [Q3 Q4]. split; congruence.
Qed.

Definition wcell (m : mem) (c : nat) : Prop := c < length (cells m) /\ forall a k, own_cell m a k = Some c -> scope m a.
Lemma ev_wcell (m m' : mem) c : ev m m' -> wcell m c -> wcell m' c.
Proof.
  intros E [H1 H2]. pose proof (ev_later _ _ E) as L. split; [pose proof (la_cells _ _ L); lia|].
  intros a k H. destruct (la_bind _ _ L _ _ _ H) as [H3|H3]; [|lia]. eapply later_scope; eauto.
Qed.
Definition oko (m : mem) (o : operand) : Prop := match o with OVal v => okv m v | ORef c => wcell m c end.
Lemma ev_oko (m m' : mem) o : ev m m' -> oko m o -> oko m' o.
Proof. intros E. destruct o; cbn; [apply later_okv, E|now apply ev_wcell]. Qed.
Lemma readc_ok (m : mem) c : sane m -> okv m (readc m c).
Proof. intros H. unfold readc. destruct (nth_error (cells m) c) eqn:E; [|exact I]. eapply sn_val; eassumption. Qed.
Lemma val_ok (m : mem) o : sane m -> oko m o -> okv m (val m o).
Proof. intros H. destruct o; cbn; [auto|]. intros _. now apply readc_ok. Qed.
Lemma user_lt (m : mem) a : user m a -> a < length (objs m).
Proof. intros (o & Ho & _). eapply obj_at_lt, Ho. Qed.
Lemma scope_noclo (m : mem) a f sc : sane m -> scope m a -> closure_at m a f sc -> False.
Proof.
  intros H Hs Hc. destruct (sn_fun _ H _ _ _ Hc) as [H6 _]. destruct Hs as [[-> _]|[_ (o & Ho & _ & Hf)]]; [lia|].
  destruct Hc as (o' & Ho' & Hf'). congruence.
Qed.

(** ** New cells and objects *)
Lemma nth_app_cases {A} (l r : list A) i v : nth_error (l ++ r) i = Some v -> nth_error l i = Some v \/ In v r.
Proof.
  intros H. destruct (Nat.lt_ge_cases i (length l)) as [Hl|Hl].
  - rewrite nth_error_app1 in H by assumption. now left.
  - rewrite nth_error_app2 in H by assumption. right. eapply nth_error_In, H.
Qed.
(* growth that adds good values, leaves activations and prototypes alone and adds good objects *)
Lemma sane_grow (m m' : mem) : sane m -> grow m m' ->
  (forall l, cells m' = cells m ++ l -> forall v, In v l -> okv m' v) ->
  (forall a k, activation m a -> own_cell m' a k = own_cell m a k) ->
  (forall a f sc, closure_at m a f sc -> own_cell m' a prototype = own_cell m a prototype) ->
  (forall a o p, length (objs m) <= a -> obj_at m' a = Some o -> proto o = Some p -> p < a) ->
  sane m' /\ ev m m'.
Proof.
  intros SN G1 Hv Ha Hp Hn. pose proof (grow_later _ _ G1) as L.
  assert (E : ev m m').
  { constructor; [exact L|exact Ha|]. intros a f sc c Hc Hd. rewrite (Hp _ _ _ Hc). split; [exact Hd|].
    destruct (gr_cells _ _ G1) as [l ->]. apply nth_error_app1. eapply (wf_bound _ (sn_wf _ SN)), Hd. }
  split; [|exact E]. constructor.
  - eapply grow_wf; [apply SN|exact G1].
  - intros c v H. destruct (gr_cells _ _ G1) as [l El]. rewrite El in H. apply nth_app_cases in H. destruct H as [H|H].
    + eapply later_okv; [exact L|]. eapply sn_val; eassumption.
    + eapply Hv; eassumption.
  - intros a f sc H. apply (grow_closure _ _ _ _ _ G1) in H. destruct (sn_fun _ SN _ _ _ H) as (H6 & Hu & He & c & p & Hc & Hd).
    split; [exact H6|]. split; [eapply later_user; eassumption|]. split; [eapply later_env; eassumption|].
    exists c, p. destruct (ev_pro _ _ E _ _ _ _ H Hc) as [Q1 Q2]. split; congruence.
  - intros a o p Ho Hpo. destruct (Nat.lt_ge_cases a (length (objs m))) as [Hl|Hl]; [|left; eauto].
    destruct (obj_at m a) as [o0|] eqn:E0; [|apply nth_error_None in E0; lia].
    destruct (la_old _ _ L _ _ E0) as (o' & Ho' & Hp' & _). eapply sn_proto; [exact SN|exact E0|]. congruence.
  - intros o Ho. pose proof (sn_base _ SN). destruct (obj_at m 1) as [o0|] eqn:E0; [|apply nth_error_None in E0; lia].
    destruct (la_old _ _ L _ _ E0) as (o' & Ho' & Hp' & _). pose proof (sn_one _ SN _ E0). congruence.
  - pose proof (sn_base _ SN). pose proof (gr_objs _ _ G1). lia.
Qed.

Lemma sane_set (m : mem) a k v : sane m -> okv m v -> user m a ->
  (k <> prototype \/ forall f sc, ~ closure_at m a f sc) ->
  sane (set_prop m a k v) /\ ev m (set_prop m a k v).
Proof.
  intros SN Hv Hu Hk. pose proof (grow_set m a k v (sn_wf _ SN)) as G1. apply sane_grow; auto.
  - intros l E w Hw. rewrite cells_set in E. apply app_inv_head in E. subst l. destruct Hw as [<-|[]].
    eapply later_okv; [apply grow_later, G1|exact Hv].
  - intros a' k' [H6 (o & Ho & Hpo & Hfo)]. rewrite own_cell_set, Ho. unfold own_cell. rewrite Ho.
    destruct (Nat.eqb_spec a' a) as [->|]; [|reflexivity]. destruct Hu as (o' & Ho' & [Q|Q]); [congruence|lia].
  - intros a' f sc Hc. rewrite own_cell_set. destruct Hc as (o & Ho & Hf). rewrite Ho. unfold own_cell. rewrite Ho.
    destruct (Nat.eqb_spec a' a) as [->|]; [|reflexivity]. destruct (Nat.eqb_spec k prototype) as [->|]; [|reflexivity].
    destruct Hk as [Hk|Hk]; [congruence|]. exfalso. apply (Hk f sc). now exists o.
  - intros a' o p Hl Ho. apply obj_at_lt in Ho. rewrite objs_set_length in Ho. lia.
Qed.
Lemma sane_add (m : mem) o p : sane m -> props o = [] -> fn o = None -> proto o = Some p -> p < length (objs m) ->
  sane (add_obj m o) /\ ev m (add_obj m o) /\ user (add_obj m o) (length (objs m)) /\
  (forall f sc, ~ closure_at (add_obj m o) (length (objs m)) f sc).
Proof.
  intros SN Hp Hf Hpo Hlt. pose proof (grow_add m o (sn_wf _ SN) Hp Hf) as G1.
  assert (HO : forall a k, own_cell (add_obj m o) a k = own_cell m a k).
  { intros a k. unfold own_cell. rewrite obj_at_add. destruct (Nat.eqb_spec a (length (objs m))) as [->|]; [|reflexivity].
    rewrite Hp. cbn. unfold obj_at. now rewrite (proj2 (nth_error_None _ _)). }
  assert (HN : obj_at (add_obj m o) (length (objs m)) = Some o) by (rewrite obj_at_add, Nat.eqb_refl; reflexivity).
  assert (Q : sane (add_obj m o) /\ ev m (add_obj m o)).
  { apply sane_grow; auto.
    - intros l E v Hv. cbn in E. rewrite <- (app_nil_r (cells m)) in E at 1. apply app_inv_head in E. subst l. destruct Hv.
    - intros a o' p' Hl Ho Hp'. rewrite obj_at_add in Ho. destruct (Nat.eqb_spec a (length (objs m))) as [->|]; [congruence|].
      apply obj_at_lt in Ho. lia. }
  split; [apply Q|]. split; [apply Q|]. split.
  - exists o. split; [exact HN|]. left. congruence.
  - intros f sc (o' & Ho' & Hf'). congruence.
Qed.
Lemma sane_fold kvs a (m : mem) : sane m -> user m a -> (forall f sc, ~ closure_at m a f sc) ->
  (forall kv, In kv kvs -> okv m (snd kv)) ->
  let m' := fold_left (fun mm kv => set_prop mm a (fst kv) (snd kv)) kvs m in sane m' /\ ev m m'.
Proof.
  revert m. induction kvs as [|kv kvs IH]; intros m SN Hu Hc Hv; cbn [fold_left]; [split; [exact SN|apply ev_refl]|].
  destruct (sane_set m a (fst kv) (snd kv) SN (Hv _ (or_introl eq_refl)) Hu (or_intror Hc)) as [S1 E1].
  pose proof (ev_later _ _ E1) as L1.
  destruct (IH (set_prop m a (fst kv) (snd kv)) S1) as [S2 E2].
  - eapply later_user; eassumption.
  - intros f sc H. apply (Hc f sc). eapply grow_closure; [|exact H]. apply grow_set, SN.
  - intros kv' H'. eapply later_okv; [exact L1|]. apply Hv. now right.
  - split; [exact S2|]. eapply ev_trans; eassumption.
Qed.
Lemma sane_literal (m : mem) kvs : sane m -> (forall kv, In kv kvs -> okv m (snd kv)) ->
  sane (snd (literal m kvs)) /\ ev m (snd (literal m kvs)) /\ okv (snd (literal m kvs)) (fst (literal m kvs)).
Proof.
  intros SN Hv. unfold literal. cbn [fst snd].
  destruct (sane_add m (mkobj [] (Some object_proto) None) object_proto SN eq_refl eq_refl eq_refl) as (S1 & E1 & U1 & C1).
  { pose proof (sn_base _ SN). unfold object_proto. lia. }
  destruct (sane_fold kvs (length (objs m)) _ S1 U1 C1) as [S2 E2].
  - intros kv H. eapply later_okv; [apply E1|]. now apply Hv.
  - split; [exact S2|]. split; [eapply ev_trans; eassumption|]. cbn [okv]. eapply later_user; [apply E2|exact U1].
Qed.
Lemma sane_receiver (m : mem) v t m' : sane m -> okv m v -> receiver m v = Some (t, m') -> sane m' /\ ev m m' /\ okv m' t.
Proof.
  intros SN Hv. destruct v as [p|a]; cbn [receiver].
  - destruct (wrapper PS p) as [pr|] eqn:E; [|discriminate]. intros Q. injection Q as <- <-.
    destruct (sane_add m (mkobj [] (Some pr) None) pr SN eq_refl eq_refl eq_refl) as (S1 & E1 & U1 & C1).
    { pose proof (sn_base _ SN). apply (proj2 (proj2 NF)) in E. lia. }
    split; [exact S1|]. split; [exact E1|exact U1].
  - intros Q. injection Q as <- <-. split; [exact SN|]. split; [apply ev_refl|exact Hv].
Qed.
Lemma first_in (m : mem) y en d : first_with m y en = Some d -> exists a, In a en /\ own_cell m a y = Some d.
Proof.
  induction en as [|a en IH]; cbn [first_with]; [discriminate|].
  destruct (own_cell m a y) eqn:E.
  - intros H. injection H as <-. exists a. split; [now left|assumption].
  - intros H. destruct (IH H) as (b & Hb & H2). exists b. split; [now right|assumption].
Qed.
Lemma user0 (m : mem) : sane m -> user m 0.
Proof.
  intros SN. pose proof (sn_base _ SN). destruct (obj_at m 0) as [o|] eqn:E; [|apply nth_error_None in E; lia].
  exists o. split; [exact E|right; lia].
Qed.
Lemma noclo0 (m : mem) : sane m -> forall f sc, ~ closure_at m 0 f sc.
Proof. intros SN f sc H. destruct (sn_fun _ SN _ _ _ H). lia. Qed.
Lemma sane_resolve (m : mem) en y c m' : sane m -> okenv m en -> resolve m en y = (c, m') -> sane m' /\ ev m m' /\ wcell m' c.
Proof.
  intros SN [He [r0 Hl]]. unfold resolve. destruct (first_with m y en) as [d|] eqn:E; intros Q; injection Q as <- <-.
  - apply first_in in E. destruct E as (a & Ha & Hd). split; [exact SN|]. split; [apply ev_refl|].
    split; [eapply (wf_bound _ (sn_wf _ SN)), Hd|]. intros a' k H.
    destruct (wf_uniq _ (sn_wf _ SN) _ _ _ _ _ H Hd) as [-> _]. now apply He.
  - rewrite Hl, last_last. destruct (sane_set m 0 y vundef SN I (user0 _ SN) (or_intror (noclo0 _ SN))) as [S1 E1].
    split; [exact S1|]. split; [exact E1|]. split; [rewrite cells_set, app_length; cbn; lia|].
    intros a k. rewrite own_cell_set. destruct (obj_at m a) as [o|] eqn:Eo; [|discriminate].
    destruct (Nat.eqb_spec a 0) as [->|].
    + intros _. left. split; [reflexivity|]. eapply later_user; [apply E1|]. now apply user0.
    + cbn [andb]. intros Hb. assert (own_cell m a k = Some (length (cells m))) as Hc by (unfold own_cell; now rewrite Eo).
      apply (wf_bound _ (sn_wf _ SN)) in Hc. lia.
Qed.
Lemma write_objs (m : mem) c v : objs (writec m c v) = objs m.
Proof. reflexivity. Qed.
Lemma nth_write (m : mem) c v d : nth_error (cells (writec m c v)) d =
  if (d =? c) && (c <? length (cells m)) then Some v else nth_error (cells m) d.
Proof. rewrite writec_set. cbn [set_cell cells]. apply nth_error_upd. Qed.
Lemma sane_write (m : mem) c v : sane m -> wcell m c -> okv m v -> sane (writec m c v) /\ ev m (writec m c v).
Proof.
  intros SN [W1 W2] Hv.
  assert (HP : forall a f sc d, closure_at m a f sc -> own_cell m a prototype = Some d -> d <> c).
  { intros a f sc d Hc Hd ->. apply (scope_noclo m a f sc SN); [eapply W2, Hd|exact Hc]. }
  assert (E : ev m (writec m c v)).
  { constructor; [apply write_later|reflexivity|]. intros a f sc d Hc Hd. split; [exact Hd|].
    rewrite nth_write. destruct (Nat.eqb_spec d c) as [->|]; [|reflexivity]. exfalso. eapply HP; eauto. }
  split; [|exact E]. pose proof (ev_later _ _ E) as L. constructor.
  - apply write_wf, SN.
  - intros d w H. rewrite nth_write in H. destruct ((d =? c) && (c <? length (cells m))).
    + injection H as <-. eapply later_okv; eassumption.
    + eapply later_okv; [exact L|]. eapply sn_val; eassumption.
  - intros a f sc H. destruct (sn_fun _ SN a f sc H) as (H6 & Hu & He & d & p & Hc & Hd).
    split; [exact H6|]. split; [exact Hu|]. split; [exact He|]. exists d, p.
    destruct (ev_pro _ _ E _ _ _ _ H Hc) as [Q1 Q2]. split; congruence.
  - exact (sn_proto _ SN).
  - exact (sn_one _ SN).
  - exact (sn_base _ SN).
Qed.
Lemma sane_closure (m : mem) en f : sane m -> okenv m en ->
  sane (snd (closure m en f)) /\ ev m (snd (closure m en f)) /\ okv (snd (closure m en f)) (fst (closure m en f)).
Proof.
  intros SN [He Hl]. pose proof (closure_later m en f) as L.
  assert (Hlt : forall s, In s en -> s < length (objs m)).
  { intros s Hs. destruct (He s Hs) as [[_ H]|[_ (o & Ho & _)]]; [now apply user_lt|eapply obj_at_lt, Ho]. }
  assert (HO : forall a k, a < length (objs m) -> own_cell (snd (closure m en f)) a k = own_cell m a k).
  { intros a k Ha. rewrite own_cell_closure. destruct (Nat.eqb_spec a (length (objs m))); [lia|reflexivity]. }
  assert (HC : cells (snd (closure m en f)) = cells m ++ [VObj (S (length (objs m)))]) by reflexivity.
  assert (U0 : user (snd (closure m en f)) (length (objs m))).
  { exists (mkobj [(prototype, length (cells m))] (Some function_proto) (Some (f, rev en))).
    split; [rewrite obj_at_closure, Nat.eqb_refl; reflexivity|left; discriminate]. }
  assert (U1 : user (snd (closure m en f)) (S (length (objs m)))).
  { exists (mkobj [] (Some object_proto) None).
    split; [rewrite obj_at_closure, Nat.eqb_refl; destruct (Nat.eqb_spec (S (length (objs m))) (length (objs m))); [lia|reflexivity]|left; discriminate]. }
  assert (E : ev m (snd (closure m en f))).
  { constructor; [exact L| |].
    - intros a k [_ (o & Ho & _)]. apply HO. eapply obj_at_lt, Ho.
    - intros a f' sc c (o & Ho & _) Hc. rewrite HO by (eapply obj_at_lt, Ho). split; [exact Hc|].
      rewrite HC. apply nth_error_app1. eapply (wf_bound _ (sn_wf _ SN)), Hc. }
  split; [|split; [exact E|exact U0]]. constructor.
  - apply closure_wf; [apply SN|exact Hlt].
  - intros c v H. rewrite HC in H. apply nth_app_cases in H. destruct H as [H|[<-|[]]]; [|exact U1].
    eapply later_okv; [exact L|]. eapply sn_val; eassumption.
  - intros a f' sc (o & Ho & Hf). rewrite obj_at_closure in Ho.
    destruct (Nat.eqb_spec a (length (objs m))) as [->|].
    + injection Ho as <-. injection Hf as <- <-. pose proof (sn_base _ SN). split; [lia|]. split; [exact U0|]. rewrite rev_involutive.
      split; [eapply later_env; [exact L|now split]|]. exists (length (cells m)), (S (length (objs m))).
      rewrite own_cell_closure, Nat.eqb_refl. split; [reflexivity|]. rewrite HC, nth_error_app2, Nat.sub_diag by lia. reflexivity.
    + destruct (Nat.eqb_spec a (S (length (objs m)))) as [->|]; [injection Ho as <-; discriminate Hf|].
      assert (Hc : closure_at m a f' sc) by now exists o.
      destruct (sn_fun _ SN a f' sc Hc) as (H6 & Hu & Hen & d & p & Hd & Hp).
      split; [exact H6|]. split; [eapply later_user; eassumption|]. split; [eapply later_env; eassumption|].
      exists d, p. destruct (ev_pro _ _ E _ _ _ _ Hc Hd) as [Q1 Q2]. split; congruence.
  - intros a o p Ho Hp. rewrite obj_at_closure in Ho. pose proof (sn_base _ SN).
    destruct (Nat.eqb_spec a (length (objs m))) as [->|]; [injection Ho as <-; injection Hp as <-; unfold function_proto; lia|].
    destruct (Nat.eqb_spec a (S (length (objs m)))) as [->|]; [injection Ho as <-; injection Hp as <-; unfold object_proto; lia|].
    eapply sn_proto; eassumption.
  - intros o Ho. pose proof (sn_base _ SN). rewrite obj_at_closure in Ho.
    destruct (Nat.eqb_spec 1 (length (objs m))); [lia|]. destruct (Nat.eqb_spec 1 (S (length (objs m)))); [lia|]. eapply sn_one; eassumption.
  - pose proof (sn_base _ SN). pose proof (la_objs _ _ L). lia.
Qed.

(** ** Entering a function *)
Lemma fold_set_at (m : mem) sa xs :
  let m' := fold_left (fun mm x => set_prop mm sa x vundef) xs m in
  cells m' = cells m ++ repeat vundef (length xs) /\
  forall a, (a <> sa -> obj_at m' a = obj_at m a) /\
            (forall o, obj_at m a = Some o -> exists o', obj_at m' a = Some o' /\ proto o' = proto o /\ fn o' = fn o).
Proof.
  revert m. induction xs as [|x xs IH]; intros m; cbn [fold_left length repeat].
  - split; [now rewrite app_nil_r|]. intros a. split; [reflexivity|]. intros o H. eauto.
  - destruct (IH (set_prop m sa x vundef)) as [H1 H2]. split.
    + rewrite H1, cells_set, <- app_assoc. reflexivity.
    + intros a. destruct (H2 a) as [H3 H4]. split.
      * intros Ha. rewrite H3 by assumption. rewrite obj_at_set. destruct (obj_at m a); [|reflexivity].
        destruct (Nat.eqb_spec a sa); [congruence|reflexivity].
      * intros o Ho. assert (Q : exists o1, obj_at (set_prop m sa x vundef) a = Some o1 /\ proto o1 = proto o /\ fn o1 = fn o)
          by (rewrite obj_at_set, Ho; destruct (a =? sa); eauto).
        destruct Q as (o1 & Q1 & Q2 & Q3). destruct (H4 _ Q1) as (o2 & Q4 & Q5 & Q6). exists o2. repeat split; congruence.
Qed.
Lemma entry_facts (isnew : bool) a f vs (m : mem) :
  let m' := entry_mem isnew a f vs m in
  cells m' = cells m ++ vs ++ repeat vundef (length (params f) - length vs) ++ repeat vundef (length (fun_locals f)) /\
  (forall x, x < length (objs m) -> obj_at m' x = obj_at m x) /\
  (exists o, obj_at m' (length (objs m)) = Some o /\ proto o = None /\ fn o = None) /\
  (isnew = true -> obj_at m' (S (length (objs m))) =
     Some (mkobj [] (Some (proto_for (add_obj (add_cells m vs) (mkobj [] None None)) a)) None)) /\
  length (objs m') = if isnew then S (S (length (objs m))) else S (length (objs m)).
Proof.
  unfold entry_mem, with_locals. set (m1 := add_obj (add_cells m vs) (mkobj [] None None)).
  set (m2 := if isnew then _ else m1).
  assert (L1 : length (objs m1) = S (length (objs m))) by (unfold m1; cbn; rewrite app_length; cbn; lia).
  assert (L2 : length (objs m2) = if isnew then S (S (length (objs m))) else S (length (objs m))).
  { unfold m2. destruct isnew; [cbn [add_obj objs]; rewrite app_length, L1; cbn; lia|exact L1]. }
  assert (L2' : length (objs m) < length (objs m2)) by (rewrite L2; destruct isnew; lia).
  set (m3 := with_params m2 (length (cells m)) (length (objs m)) f vs).
  assert (C3 : cells m3 = cells m ++ vs ++ repeat vundef (length (params f) - length vs)).
  { unfold m3, with_params. cbn [cells add_cells]. unfold m2. destruct isnew; cbn [add_obj cells]; unfold m1; cbn [add_obj add_cells cells]; now rewrite <- app_assoc. }
  assert (O3 : forall x, x <> length (objs m) -> obj_at m3 x = obj_at m2 x).
  { intros x Hx. unfold m3. rewrite obj_at_params by assumption. destruct (Nat.eqb_spec x (length (objs m))); [congruence|reflexivity]. }
  assert (O2 : forall x, x < length (objs m) -> obj_at m2 x = obj_at m x).
  { intros x Hx. assert (Q : obj_at m1 x = obj_at m x).
    { unfold m1. rewrite obj_at_add. cbn [add_cells objs]. destruct (Nat.eqb_spec x (length (objs m))); [lia|reflexivity]. }
    unfold m2. destruct isnew; [|exact Q]. rewrite obj_at_add. destruct (Nat.eqb_spec x (length (objs m1))); [lia|exact Q]. }
  destruct (fold_set_at m3 (length (objs m)) (fun_locals f)) as [F1 F2]. cbn zeta.
  split; [|split; [|split; [|split]]].
  - rewrite F1, C3, <- !app_assoc. reflexivity.
  - intros x Hx. rewrite (proj1 (F2 x)) by lia. rewrite O3 by lia. now apply O2.
  - assert (Q : exists o, obj_at m3 (length (objs m)) = Some o /\ proto o = None /\ fn o = None).
    { unfold m3. rewrite obj_at_params, Nat.eqb_refl by assumption. eauto. }
    destruct Q as (o & Q1 & Q2 & Q3). destruct (proj2 (F2 _) _ Q1) as (o' & Q4 & Q5 & Q6). exists o'. repeat split; congruence.
  - intros ->. rewrite (proj1 (F2 _)) by lia. rewrite O3 by lia. unfold m2. rewrite obj_at_add, L1, Nat.eqb_refl. reflexivity.
  - assert (Q : forall xs mm, length (objs (fold_left (fun mm x => set_prop mm (length (objs m)) x vundef) xs mm)) = length (objs mm)).
    { induction xs as [|y xs IH]; intros mm; cbn [fold_left]; [reflexivity|]. now rewrite IH, objs_set_length. }
    rewrite Q. unfold m3. rewrite objs_params_length by assumption. exact L2.
Qed.
Lemma proto_for_lt (m : mem) vs a f sc : sane m -> closure_at m a f sc ->
  exists c p, own_cell m a prototype = Some c /\ nth_error (cells m) c = Some (VObj p) /\
    proto_for (add_obj (add_cells m vs) (mkobj [] None None)) a = p /\ p < length (objs m).
Proof.
  intros SN Hc. destruct (sn_fun _ SN _ _ _ Hc) as (H6 & Hu & He & c & p & Hd & Hp). exists c, p.
  split; [exact Hd|]. split; [exact Hp|]. split.
  - unfold proto_for. pose proof (user_lt _ _ Hu).
    assert (Q : own_cell (add_obj (add_cells m vs) (mkobj [] None None)) a prototype = Some c).
    { unfold own_cell. rewrite obj_at_add. cbn [add_cells objs]. destruct (Nat.eqb_spec a (length (objs m))); [lia|]. exact Hd. }
    rewrite Q. unfold readc. cbn [add_obj add_cells cells].
    rewrite nth_error_app1, Hp; [reflexivity|]. eapply (wf_bound _ (sn_wf _ SN)), Hd.
  - apply user_lt. apply (sn_val _ SN _ _ Hp).
Qed.
Lemma sane_entry (isnew : bool) m a f sc vs : sane m -> closure_at m a f sc -> (forall v, In v vs -> okv m v) ->
  let m' := entry_mem isnew a f vs m in
  sane m' /\ ev m m' /\ okenv m' (length (objs m) :: rev sc) /\
  (isnew = true -> okv m' (VObj (S (length (objs m))))).
Proof.
  intros SN Hc Hv m'. destruct (entry_facts isnew a f vs m) as (C & O & (os & So & Sp & Sf) & N & Ln). fold m' in C, O, So, N, Ln.
  pose proof (grow_entry isnew a f vs m (sn_wf _ SN)) as G1. fold m' in G1. pose proof (grow_later _ _ G1) as L.
  destruct (proto_for_lt m vs a f sc SN Hc) as (c0 & p0 & Hc0 & Hp0 & HPF & HPlt).
  assert (Q : sane m' /\ ev m m').
  { apply sane_grow; auto.
    - intros l E v Hin. rewrite C in E. apply app_inv_head in E. subst l. rewrite !in_app_iff in Hin.
      destruct Hin as [Hin|[Hin|Hin]]; [eapply later_okv; [exact L|now apply Hv]| |];
        apply repeat_spec in Hin; subst v; exact I.
    - intros x k [_ (o & Ho & _)]. unfold own_cell. rewrite O by (eapply obj_at_lt, Ho). reflexivity.
    - intros x f' sc' (o & Ho & _). unfold own_cell. rewrite O by (eapply obj_at_lt, Ho). reflexivity.
    - intros x o p Hl Ho Hpo. assert (x < length (objs m')) as Hx by (eapply obj_at_lt, Ho). rewrite Ln in Hx.
      destruct (Nat.eq_dec x (length (objs m))) as [->|Hne]; [congruence|].
      destruct isnew; [|lia]. assert (x = S (length (objs m))) as -> by lia. rewrite (N eq_refl) in Ho. injection Ho as <-.
      cbn [proto] in Hpo. rewrite HPF in Hpo. injection Hpo as <-. lia. }
  destruct Q as [Q1 Q2]. split; [exact Q1|]. split; [exact Q2|]. destruct (sn_fun _ SN _ _ _ Hc) as (H6 & Hu & [He Hl] & _). split.
  - split.
    + intros s [<-|Hs]; [right; split; [pose proof (sn_base _ SN); lia|eauto]|]. eapply later_scope; [exact L|]. now apply He.
    + destruct Hl as [r ->]. exists (length (objs m) :: r). reflexivity.
  - intros ->. exists (mkobj [] (Some (proto_for (add_obj (add_cells m vs) (mkobj [] None None)) a)) None).
    split; [now apply N|left; discriminate].
Qed.

(** ** Every evaluation *)
Definition keepV {A} (Q : mem -> A -> Prop) (m : mem) (r : res A) : Prop :=
  match r with Ok a m' => sane m' /\ ev m m' /\ Q m' a | _ => True end.
Lemma keepV_bind {A B} (Q : mem -> A -> Prop) (Q' : mem -> B -> Prop) (m : mem) (r : res A) (k : A -> mem -> res B) :
  keepV Q m r -> (forall a m1, sane m1 -> ev m m1 -> Q m1 a -> keepV Q' m1 (k a m1)) -> keepV Q' m (FnSpec.bind r k).
Proof.
  intros Hr Hk. destruct r as [a m1|m1| |]; cbn in *; auto. destruct Hr as (Hs & He & Hq).
  specialize (Hk a m1 Hs He Hq). destruct (k a m1) as [b m2|m2| |]; cbn in *; auto.
  destruct Hk as (H1 & H2 & H3). split; [exact H1|]. split; [|exact H3]. eapply ev_trans; eassumption.
Qed.
Lemma keepV_from {A} (Q : mem -> A -> Prop) (m m1 : mem) (r : res A) : ev m m1 -> keepV Q m1 r -> keepV Q m r.
Proof. intros Ht. destruct r; cbn; auto. intros (H1 & H2 & H3). split; [exact H1|]. split; [|exact H3]. eapply ev_trans; eassumption. Qed.
Lemma keepV_ok {A} (Q : mem -> A -> Prop) (a : A) (m : mem) : sane m -> Q m a -> keepV Q m (Ok a m).
Proof. intros H1 H2. split; [exact H1|]. split; [apply ev_refl|exact H2]. Qed.
Lemma keepV_now {A} (Q : mem -> A -> Prop) (a : A) (m m' : mem) : sane m' -> ev m m' -> Q m' a -> keepV Q m (Ok a m').
Proof. now split. Qed.

Definition okos (m : mem) (os : list operand) : Prop := forall o, In o os -> oko m o.
Definition okis (m : mem) (os : list (name * operand)) : Prop := forall o, In o os -> oko m (snd o).
Definition okc (m : mem) (k : completion) : Prop := match k with Normal => True | Return v => okv m v end.
Definition okctx (m : mem) (c : ctx) : Prop := okenv m (env c) /\ okv m (this_ c).
Lemma ev_ctx (m m' : mem) c : ev m m' -> okctx m c -> okctx m' c.
Proof. intros E [H1 H2]. split; [eapply later_env; [apply E|exact H1]|eapply later_okv; [apply E|exact H2]]. Qed.
Definition okrcv (m : mem) (r : option V) : Prop := match r with Some v => okv m v | None => True end.

Lemma get_ok (m : mem) a k : sane m -> okv m (get m a k).
Proof. intros H. unfold get. destruct (first_with m k _); [now apply readc_ok|exact I]. Qed.
Lemma member_ok (m : mem) v k w : sane m -> member m v k = Some w -> okv m w.
Proof.
  intros H. destruct v as [p|a]; cbn [member].
  - destruct (wrapper PS p); [|discriminate]. intros E. injection E as <-. now apply get_ok.
  - intros E. injection E as <-. now apply get_ok.
Qed.
Lemma op_ok late (m : mem) c : sane m -> wcell m c -> oko m (operand_of late m c).
Proof. intros H W. unfold operand_of. destruct late; [exact W|]. cbn. now apply readc_ok. Qed.
Lemma vals_ok (m : mem) os : sane m -> okos m os -> forall v, In v (map (val m) os) -> okv m v.
Proof. intros H Ho v Hv. apply in_map_iff in Hv. destruct Hv as (o & <- & Hin). apply val_ok; auto. Qed.

Section Callf.
Variable late : bool.
Variable callf : bool -> option V -> V -> list V -> V -> nat -> mem -> res V.
Hypothesis Hcf : forall b r v vs t d (m : mem), sane m -> okrcv m r -> okv m v -> (forall w, In w vs -> okv m w) -> okv m t ->
  keepV okv m (callf b r v vs t d m).

Definition sv_e (e : expr) : Prop := forall c (m : mem), sane m -> okctx m c -> keepV oko m (eval late callf c e m).
Definition sv_es (e : exprs) : Prop := forall c (m : mem), sane m -> okctx m c -> keepV okos m (evals late callf c e m).
Definition sv_is (e : items) : Prop := forall c (m : mem), sane m -> okctx m c -> keepV okis m (evali late callf c e m).

Ltac nx x m S E O := intros x m S E O.
Lemma sv_expr : (forall e, sv_e e) /\ (forall es, sv_es es) /\ (forall is, sv_is is) /\ (forall s : stmt, True) /\ (forall f : fundef, True).
Proof.
  apply (fn_mut PS sv_e sv_es sv_is (fun _ => True) (fun _ => True)); auto.
  - intros p c m SN HC. rewrite eval_eq. cbn [eval1]. apply keepV_ok; [exact SN|exact I].
  - intros x c m SN HC. rewrite eval_eq. cbn [eval1]. destruct (resolve m (env c) x) as [a m1] eqn:E.
    destruct (sane_resolve _ _ _ _ _ SN (proj1 HC) E) as (S1 & E1 & W1). apply keepV_now; auto. now apply op_ok.
  - intros c m SN HC. rewrite eval_eq. cbn [eval1]. apply keepV_ok; [exact SN|exact (proj2 HC)].
  - intros x e IH c m SN HC. rewrite eval_eq. cbn [eval1]. destruct (resolve m (env c) x) as [a m1] eqn:E.
    destruct (sane_resolve _ _ _ _ _ SN (proj1 HC) E) as (S1 & E1 & W1). apply keepV_from with m1; [exact E1|].
    eapply keepV_bind; [apply IH; [exact S1|eapply ev_ctx; eassumption]|]. nx o m2 S2 E2 O2.
    destruct (sane_write m2 a (val m2 o) S2) as [S3 E3]; [eapply ev_wcell; eassumption|now apply val_ok|].
    apply keepV_now; auto. apply op_ok; [exact S3|]. eapply ev_wcell; [exact E3|]. eapply ev_wcell; eassumption.
  - intros u e IH c m SN HC. rewrite eval_eq. cbn [eval1]. eapply keepV_bind; [apply IH; assumption|]. nx o m1 S1 E1 O1.
    destruct (un_sem PS u (val m1 o)) as [w|] eqn:E; [|exact I]. apply keepV_ok; [exact S1|]. cbn [oko].
    destruct w as [p|a]; [exact I|]. apply (proj1 NF) in E. rewrite <- E. now apply val_ok.
  - intros b x IHx y IHy c m SN HC. rewrite eval_eq. cbn [eval1]. eapply keepV_bind; [apply IHx; assumption|]. nx o m1 S1 E1 O1.
    eapply keepV_bind; [apply IHy; [exact S1|eapply ev_ctx; eassumption]|]. nx o2 m2 S2 E2 O2.
    destruct (bin_sem PS b (val m2 o) (val m2 o2)) as [w|] eqn:E; [|exact I]. apply keepV_ok; [exact S2|]. cbn [oko].
    destruct w as [p|a]; [exact I|]. apply (proj1 (proj2 NF)) in E.
    destruct E as [E|E]; rewrite <- E; apply val_ok; auto. eapply ev_oko; eassumption.
  - intros x IHx y IHy c m SN HC. rewrite eval_eq. cbn [eval1]. eapply keepV_bind; [apply IHx; assumption|]. nx o m1 S1 E1 O1.
    destruct (truth PS (val m1 o)); [apply IHy; [exact S1|eapply ev_ctx; eassumption]|].
    apply keepV_ok; [exact S1|now apply val_ok].
  - intros x IHx y IHy c m SN HC. rewrite eval_eq. cbn [eval1]. eapply keepV_bind; [apply IHx; assumption|]. nx o m1 S1 E1 O1.
    destruct (truth PS (val m1 o)); [|apply IHy; [exact S1|eapply ev_ctx; eassumption]].
    apply keepV_ok; [exact S1|now apply val_ok].
  - intros x IHx y IHy z IHz c m SN HC. rewrite eval_eq. cbn [eval1]. eapply keepV_bind; [apply IHx; assumption|]. nx o m1 S1 E1 O1.
    destruct (truth PS (val m1 o)); [apply IHy|apply IHz]; try exact S1; eapply ev_ctx; eassumption.
  - intros x IHx y IHy c m SN HC. rewrite eval_eq. cbn [eval1]. eapply keepV_bind; [apply IHx; assumption|]. nx o m1 S1 E1 O1.
    apply IHy; [exact S1|eapply ev_ctx; eassumption].
  - intros x IHx c m SN HC. rewrite eval_eq. cbn [eval1]. eapply keepV_bind; [apply IHx; assumption|]. nx o m1 S1 E1 O1.
    apply keepV_ok; [exact S1|exact I].
  - intros f _ c m SN HC. rewrite eval_eq. cbn [eval1].
    destruct (sane_closure m (env c) f SN (proj1 HC)) as (S1 & E1 & O1).
    destruct (closure m (env c) f) as [v m1]. cbn [fst snd] in *. apply keepV_now; auto.
  - intros e IHe es IHs c m SN HC. rewrite eval_eq. cbn [eval1]. eapply keepV_bind; [apply IHe; assumption|]. nx o m1 S1 E1 O1.
    eapply keepV_bind; [apply IHs; [exact S1|eapply ev_ctx; eassumption]|]. nx os m2 S2 E2 O2.
    eapply keepV_bind; [apply Hcf; auto|].
    + exact I.
    + apply val_ok; [exact S2|]. eapply ev_oko; eassumption.
    + now apply vals_ok.
    + apply (ev_ctx m m2 c); [eapply ev_trans; eassumption|exact HC].
    + nx v m3 S3 E3 O3. apply keepV_ok; [exact S3|exact O3].
  - intros e IHe k es IHs c m SN HC. rewrite eval_eq. cbn [eval1]. eapply keepV_bind; [apply IHe; assumption|]. nx o m1 S1 E1 O1.
    destruct (receiver m1 (val m1 o)) as [[t m2]|] eqn:ER; [|exact I].
    destruct (sane_receiver _ _ _ _ S1 (val_ok _ _ S1 O1) ER) as (S2 & E2 & O2).
    destruct (member m2 (val m1 o) k) as [fv|] eqn:EM; [|exact I]. apply keepV_from with m2; [exact E2|].
    assert (HC2 : okctx m2 c) by (apply (ev_ctx m m2 c); [eapply ev_trans; eassumption|exact HC]).
    eapply keepV_bind; [apply IHs; [exact S2|exact HC2]|]. nx os m3 S3 E3 O3.
    eapply keepV_bind; [apply Hcf; auto|].
    + cbn. eapply later_okv; [apply E3|exact O2].
    + eapply later_okv; [apply E3|]. eapply member_ok; eassumption.
    + now apply vals_ok.
    + apply (ev_ctx m2 m3 c); assumption.
    + nx v m4 S4 E4 O4. apply keepV_ok; [exact S4|exact O4].
  - intros e IHe es IHs c m SN HC. rewrite eval_eq. cbn [eval1]. eapply keepV_bind; [apply IHe; assumption|]. nx o m1 S1 E1 O1.
    eapply keepV_bind; [apply IHs; [exact S1|eapply ev_ctx; eassumption]|]. nx os m2 S2 E2 O2.
    eapply keepV_bind; [apply Hcf; auto|].
    + exact I.
    + apply val_ok; [exact S2|]. eapply ev_oko; eassumption.
    + now apply vals_ok.
    + apply (ev_ctx m m2 c); [eapply ev_trans; eassumption|exact HC].
    + nx v m3 S3 E3 O3. apply keepV_ok; [exact S3|exact O3].
  - intros e IH k c m SN HC. rewrite eval_eq. cbn [eval1]. eapply keepV_bind; [apply IH; assumption|]. nx o m1 S1 E1 O1.
    destruct (member m1 (val m1 o) k) as [w|] eqn:EM; [|exact I]. apply keepV_ok; [exact S1|]. eapply member_ok; eassumption.
  - intros x IHx k y IHy c m SN HC. rewrite eval_eq. cbn [eval1]. eapply keepV_bind; [apply IHx; assumption|]. nx o m1 S1 E1 O1.
    eapply keepV_bind; [apply IHy; [exact S1|eapply ev_ctx; eassumption]|]. nx o2 m2 S2 E2 O2.
    destruct (set_member m2 (val m2 o) k (val m2 o2)) as [m3|] eqn:E; [|exact I].
    assert (Ov : okv m2 (val m2 o)) by (apply val_ok; [exact S2|eapply ev_oko; eassumption]).
    unfold set_member in E. destruct (val m2 o) as [q|a]; [discriminate|].
    destruct (Nat.eqb_spec k prototype) as [|Hk]; [discriminate|]. injection E as <-.
    destruct (sane_set m2 a k (val m2 o2) S2 (val_ok _ _ S2 O2) Ov (or_introl Hk)) as [S3 E3].
    apply keepV_now; auto. cbn [oko]. eapply later_okv; [apply E3|]. now apply val_ok.
  - intros is IH c m SN HC. rewrite eval_eq. cbn [eval1]. eapply keepV_bind; [apply IH; assumption|]. nx kos m1 S1 E1 O1.
    destruct (sane_literal m1 (map (fun ko => (fst ko, val m1 (snd ko))) kos) S1) as (S2 & E2 & O2).
    { intros kv Hin. apply in_map_iff in Hin. destruct Hin as (ko & <- & Hin). cbn. apply val_ok; auto. }
    destruct (literal m1 _) as [v m2]. cbn [fst snd] in *. apply keepV_now; auto.
  - intros x e IH c m SN HC. rewrite eval_eq. cbn [eval1]. destruct (resolve m (env c) x) as [a m1] eqn:E.
    destruct (sane_resolve _ _ _ _ _ SN (proj1 HC) E) as (S1 & E1 & W1). apply keepV_from with m1; [exact E1|].
    eapply keepV_bind; [apply IH; [exact S1|eapply ev_ctx; eassumption]|]. nx o m2 S2 E2 O2.
    apply keepV_ok; [exact S2|exact I].
  - intros c m SN HC. rewrite evals_eq. cbn [evals1]. apply keepV_ok; [exact SN|intros o []].
  - intros e IHe es IHs c m SN HC. rewrite evals_eq. cbn [evals1]. eapply keepV_bind; [apply IHe; assumption|]. nx o m1 S1 E1 O1.
    eapply keepV_bind; [apply IHs; [exact S1|eapply ev_ctx; eassumption]|]. nx os m2 S2 E2 O2.
    apply keepV_ok; [exact S2|]. intros o' [<-|Hin]; [eapply ev_oko; eassumption|now apply O2].
  - intros c m SN HC. rewrite evali_eq. cbn [evali1]. apply keepV_ok; [exact SN|intros o []].
  - intros k e IHe es IHs c m SN HC. rewrite evali_eq. cbn [evali1]. eapply keepV_bind; [apply IHe; assumption|]. nx o m1 S1 E1 O1.
    eapply keepV_bind; [apply IHs; [exact S1|eapply ev_ctx; eassumption]|]. nx os m2 S2 E2 O2.
    apply keepV_ok; [exact S2|]. intros o' [<-|Hin]; [eapply ev_oko; eassumption|now apply O2].
Qed.

Variable loops : nat.
Definition sv_s (s : stmt) : Prop := forall c (m : mem), sane m -> okctx m c -> keepV okc m (exec late callf loops c s m).
Lemma sv_test e c (m : mem) : sane m -> okctx m c -> keepV (fun _ _ => True) m (test late callf c e m).
Proof.
  intros SN HC. unfold test. eapply keepV_bind; [apply sv_expr; assumption|]. nx o m1 S1 E1 O1. now apply keepV_ok.
Qed.
Lemma sv_loop e a c (IHa : sv_s a) : forall k (m : mem), sane m -> okctx m c ->
  keepV okc m (loop k (test late callf c e) (exec late callf loops c a) m).
Proof.
  induction k as [|k IH]; intros m SN HC; [exact I|]. cbn [loop].
  eapply keepV_bind; [apply sv_test; assumption|]. nx b m1 S1 E1 O1.
  destruct b; [|apply keepV_ok; [exact S1|exact I]].
  eapply keepV_bind; [apply IHa; [exact S1|eapply ev_ctx; eassumption]|]. nx r m2 S2 E2 O2.
  destruct r; [|apply keepV_ok; [exact S2|exact O2]]. apply IH; [exact S2|].
  apply (ev_ctx m m2 c); [eapply ev_trans; eassumption|exact HC].
Qed.
Lemma sv_stmt : forall s, sv_s s.
Proof.
  pose proof (proj1 sv_expr) as HE.
  apply (stmt_mut PS (fun _ => True) (fun _ => True) (fun _ => True) sv_s (fun _ => True)); auto.
  - intros c m SN HC. apply keepV_ok; [exact SN|exact I].
  - intros e _ c m SN HC. cbn [exec]. eapply keepV_bind; [apply HE; assumption|]. nx o m1 S1 E1 O1. apply keepV_ok; [exact S1|exact I].
  - intros a IHa b IHb c m SN HC. cbn [exec]. eapply keepV_bind; [apply IHa; assumption|]. nx r m1 S1 E1 O1.
    destruct r; [|apply keepV_ok; [exact S1|exact O1]]. apply IHb; [exact S1|eapply ev_ctx; eassumption].
  - intros x e _ c m SN HC. cbn [exec]. destruct (resolve m (env c) x) as [a m1] eqn:E.
    destruct (sane_resolve _ _ _ _ _ SN (proj1 HC) E) as (S1 & E1 & W1). apply keepV_from with m1; [exact E1|].
    eapply keepV_bind; [apply HE; [exact S1|eapply ev_ctx; eassumption]|]. nx o m2 S2 E2 O2.
    destruct (sane_write m2 a (val m2 o) S2) as [S3 E3]; [eapply ev_wcell; eassumption|now apply val_ok|].
    apply keepV_now; auto. exact I.
  - intros x c m SN HC. cbn [exec]. destruct (resolve m (env c) x) as [a m1] eqn:E.
    destruct (sane_resolve _ _ _ _ _ SN (proj1 HC) E) as (S1 & E1 & W1). apply keepV_from with m1; [exact E1|].
    destruct (sane_write m1 a vundef S1 W1 I) as [S3 E3]. apply keepV_now; auto. exact I.
  - intros x f _ c m SN HC. cbn [exec]. destruct (resolve m (env c) x) as [a m1] eqn:E.
    destruct (sane_resolve _ _ _ _ _ SN (proj1 HC) E) as (S1 & E1 & W1). apply keepV_from with m1; [exact E1|].
    destruct (sane_closure m1 (env c) f S1) as (S2 & E2 & O2); [apply (ev_ctx m m1 c E1 HC)|].
    destruct (closure m1 (env c) f) as [v m2]. cbn [fst snd] in *.
    destruct (sane_write m2 a v S2) as [S3 E3]; [eapply ev_wcell; eassumption|exact O2|].
    apply keepV_now; auto; [eapply ev_trans; eassumption|exact I].
  - intros e _ a IHa c m SN HC. cbn [exec]. eapply keepV_bind; [apply sv_test; assumption|]. nx b m1 S1 E1 O1.
    destruct b; [apply IHa; [exact S1|eapply ev_ctx; eassumption]|apply keepV_ok; [exact S1|exact I]].
  - intros e _ a IHa b IHb c m SN HC. cbn [exec]. eapply keepV_bind; [apply sv_test; assumption|]. nx t m1 S1 E1 O1.
    destruct t; [apply IHa|apply IHb]; try exact S1; eapply ev_ctx; eassumption.
  - intros e _ a IHa c m SN HC. cbn [exec]. now apply sv_loop.
  - intros e _ c m SN HC. cbn [exec]. eapply keepV_bind; [apply HE; assumption|]. nx o m1 S1 E1 O1.
    apply keepV_ok; [exact S1|]. cbn. now apply val_ok.
  - intros c m SN HC. apply keepV_ok; [exact SN|exact I].
Qed.
End Callf.

Lemma closure_of_entry (m : mem) vs a pr po f sc :
  obj_at (add_obj (add_cells m vs) (mkobj [] None None)) a = Some (mkobj pr po (Some (f, sc))) -> closure_at m a f sc.
Proof.
  intros EO. exists (mkobj pr po (Some (f, sc))). split; [|reflexivity].
  rewrite obj_at_add in EO. cbn [add_cells objs] in EO. destruct (a =? length (objs m)); [discriminate|]. exact EO.
Qed.
Lemma sv_call late n : forall b r v vs t d (m : mem), sane m -> okrcv m r -> okv m v -> (forall w, In w vs -> okv m w) -> okv m t ->
  keepV okv m (call late n b r v vs t d m).
Proof.
  induction n as [|n IH]; intros b r v vs t d m SN Hr Hv Hvs Ht; [exact I|]. cbn [call].
  destruct v as [p|a]; [exact I|].
  set (m1 := add_obj (add_cells m vs) (mkobj [] None None)).
  destruct (obj_at m1 a) as [[pr po [[f sc]|]]|] eqn:EO; try exact I.
  apply closure_of_entry in EO.
  destruct (is_arrow f && _); [exact I|].
  destruct (args_bad PS (params f) vs); [exact I|].
  destruct (match max_depth PS with Some k => _ | None => _ end); [exact I|].
  destruct (sane_entry b m a f sc vs SN EO Hvs) as (S1 & E1 & N1 & T1). unfold entry_mem in *. fold m1 in S1, E1, N1, T1 |- *.
  set (t' := if is_arrow f then _ else _).
  match type of S1 with sane ?mm => set (m4 := mm) in * end.
  assert (L1 : length (objs m1) = S (length (objs m))) by (unfold m1; cbn; rewrite app_length; cbn; lia).
  assert (Ot : okv m4 t').
  { unfold t'. destruct (is_arrow f); [eapply later_okv; [apply E1|exact Ht]|].
    destruct b; [rewrite L1; now apply T1|]. destruct r as [rv|]; [eapply later_okv; [apply E1|exact Hr]|]. now apply user0. }
  apply keepV_from with m4; [exact E1|].
  eapply keepV_bind; [apply (sv_stmt late (call late n) IH n (body f)); [exact S1|split; [exact N1|exact Ot]]|].
  intros k m5 S5 E5 O5. apply keepV_ok; [exact S5|].
  assert (Ov : okv m5 (match k with Return v => v | Normal => vundef end)) by (destruct k; [exact I|exact O5]).
  destruct b; [|exact Ov]. destruct (match k with Return v => v | Normal => vundef end); [|exact Ov].
  eapply later_okv; [apply E5|exact Ot].
Qed.
Lemma sane_mem0 : sane (@mem0 PS).
Proof.
  assert (NC : forall a f sc, ~ closure_at (@mem0 PS) a f sc).
  { intros a f sc (o & Ho & Hf). unfold obj_at, mem0 in Ho. cbn [objs] in Ho.
    do 6 (destruct a; [injection Ho as <-; discriminate Hf|]). destruct a; discriminate. }
  constructor.
  - apply wf_mem0.
  - intros c v H. destruct c; discriminate.
  - intros a f sc H. destruct (NC _ _ _ H).
  - intros a o p Ho Hp. unfold obj_at, mem0 in Ho. cbn [objs] in Ho.
    do 6 (destruct a; [injection Ho as <-; cbn in Hp; try discriminate Hp; injection Hp as <-; lia|]). destruct a; discriminate.
  - intros o Ho. injection Ho as <-. reflexivity.
  - cbn. lia.
Qed.
Lemma okctx0 : okctx (@mem0 PS) (mkctx [0] (VObj 0) 1).
Proof.
  split; [|apply (user0 _ sane_mem0)]. split; [|exists []; reflexivity]. intros s [<-|[]]. left. split; [reflexivity|apply (user0 _ sane_mem0)].
Qed.
Lemma sv_program late n (p : stmt) v (m : mem) : program late n p = Ok v m -> sane m /\ okv m v.
Proof.
  intros H. unfold program in H.
  pose proof (sv_stmt late (call late n) (sv_call late n) n p _ _ sane_mem0 okctx0) as K.
  destruct (exec late (call late n) n (mkctx [0] (VObj 0) 1) p mem0) as [k m1|m1| |]; cbn in H; try discriminate.
  injection H as <- <-. destruct K as (K1 & _ & K2). split; [exact K1|]. destruct k; [exact I|exact K2].
Qed.
End Sane.
