(** * Who can change a variable *)
Require Import ZArith List Bool Lia.
Import ListNotations.
Require Import Verif.FnModel Verif.FnSpec Verif.FnSpec2 Verif.FnProofs Verif.FnProofs2 Verif.FnProofs3 Verif.FnProofs5 Verif.FnProofs6.
Local Open Scope nat_scope.

Section Own.
Context {PS : psys}.
Notation V := (value (prim PS)).
Notation vundef := (VPrim (undef PS)).
Notation mem := (@mem PS).
Notation stmt := (@stmt PS).
Notation fundef := (@fundef PS).

Lemma funs_closed :
  (forall (e : @expr PS) f, In f (funs_e e) -> incl (funs_s (body f)) (funs_e e)) /\
  (forall (es : @exprs PS) f, In f (funs_es es) -> incl (funs_s (body f)) (funs_es es)) /\
  (forall (is : @items PS) f, In f (funs_is is) -> incl (funs_s (body f)) (funs_is is)) /\
  (forall (s : stmt) f, In f (funs_s s) -> incl (funs_s (body f)) (funs_s s)) /\
  (forall (g : fundef) f, In f (funs_f g) -> incl (funs_s (body f)) (funs_f g)).
Proof.
  apply (fn_mut PS (fun e => forall f, In f (funs_e e) -> incl (funs_s (body f)) (funs_e e))
    (fun e => forall f, In f (funs_es e) -> incl (funs_s (body f)) (funs_es e))
    (fun e => forall f, In f (funs_is e) -> incl (funs_s (body f)) (funs_is e))
    (fun e => forall f, In f (funs_s e) -> incl (funs_s (body f)) (funs_s e))
    (fun e => forall f, In f (funs_f e) -> incl (funs_s (body f)) (funs_f e)));
  intros; cbn [funs_e funs_es funs_is funs_s funs_f] in *;
  repeat match goal with H : In _ (_ ++ _) |- _ => apply in_app_iff in H; destruct H end;
  try match goal with H : In _ [] |- _ => destruct H end; auto using incl_appl, incl_appr.
  cbn [In] in *. destruct H0 as [<-|H0]; [apply incl_tl, incl_refl|]. apply incl_tl. auto.
Qed.
Lemma funs_s_closed (s : stmt) f : In f (funs_s s) -> incl (funs_s (body f)) (funs_s s).
Proof. apply funs_closed. Qed.
Lemma funs_f_body (f : fundef) : funs_f f = f :: funs_s (body f).
Proof. destruct f; reflexivity. Qed.

(** ** Closures that see a given scope come from given functions *)
Section Owner.
Variable a0 : option nat.
Variable Gf : fundef -> Prop.
Hypothesis Gf_closed : forall f, Gf f -> forall f', In f' (funs_s (body f)) -> Gf f'.
Definition scoped (sc : list nat) : Prop := match a0 with None => True | Some a => In a sc end.
Definition there (m : mem) : Prop := match a0 with None => True | Some a => a < length (objs m) end.
Definition own_inv (m : mem) : Prop :=
  wf m /\ there m /\ forall a f sc, closure_at m a f sc -> scoped sc -> Gf f.
Definition own_pm (m : mem) (en : list nat) (xs : list name) (fs : list fundef) : Prop :=
  (forall s, In s en -> s < length (objs m)) /\ (scoped en -> forall f, In f fs -> Gf f).

Lemma own_grow m m' : own_inv m -> grow m m' -> own_inv m' /\ later m m'.
Proof.
  intros (Hw & Ht & Hc) G1. split; [|now apply grow_later]. split; [now apply grow_wf with m|]. split.
  - unfold there in *. destruct a0; [|exact I]. pose proof (gr_objs _ _ G1). lia.
  - intros a f sc H. apply Hc with a. eapply grow_closure; eassumption.
Qed.
Lemma scoped_rev sc : scoped (rev sc) -> scoped sc.
Proof. unfold scoped. destruct a0; [|auto]. apply in_rev. Qed.
Lemma scoped_rev' sc : scoped sc -> scoped (rev sc).
Proof. unfold scoped. destruct a0; [|auto]. now rewrite <- in_rev. Qed.

Lemma own_good : good own_inv later own_pm (fun _ => True) True.
Proof.
  constructor; auto using later_refl.
  - exact later_trans.
  - intros m en xs fs xs' fs' [H1 H2] Hx Hf. split; [assumption|]. intros Hs f Hin. auto.
  - intros m m' en xs fs _ _ HT [H1 H2]. split; [|assumption]. intros s Hs.
    pose proof (la_objs _ _ HT). pose proof (H1 s Hs). lia.
  - intros m v t m' Hi H. eapply own_grow; [exact Hi|]. eapply grow_receiver; [apply Hi|eassumption].
  - intros m a k v Hi Hk. apply own_grow; [exact Hi|]. apply grow_set, Hi.
  - intros m kvs Hi. apply own_grow; [exact Hi|]. apply grow_literal, Hi.
  - intros m en y Hi _. apply own_grow; [exact Hi|]. apply grow_resolve, Hi.
  - intros m a v (Hw & Ht & Hc) _. split; [|apply write_later]. split; [now apply write_wf|]. split; assumption.
  - intros m en f (Hw & Ht & Hc) [H1 H2]. split; [|apply closure_later]. split; [now apply closure_wf|]. split.
    + unfold there in *. destruct a0; [|exact I]. pose proof (la_objs _ _ (closure_later m en f)). lia.
    + intros a f' sc H Hs. apply closure_closure in H. destruct H as [H|[-> ->]]; [eauto|].
      apply H2; [now apply scoped_rev|]. rewrite funs_f_body. now left.
  - intros _ m isnew a f sc vs Hi Hcl.
    destruct (own_grow m (entry_mem isnew a f vs m) Hi) as [H1 H2]; [apply grow_entry, Hi|].
    split; [assumption|]. split; [assumption|]. destruct Hi as (Hw & Ht & Hc). split.
    + intros s [<-|Hs].
      * unfold entry_mem. unfold with_locals.
        set (m3 := with_params _ _ _ _ _).
        assert (L : length (objs m) < length (objs m3)).
        { unfold m3. rewrite objs_params_length; destruct isnew; cbn; rewrite ?app_length; cbn; lia. }
        assert (L2 : forall xs mm, length (objs (fold_left (fun mm x => set_prop mm (length (objs m)) x vundef) xs mm)) = length (objs mm)).
        { induction xs as [|y xs IH]; intros mm; cbn [fold_left]; [reflexivity|]. now rewrite IH, objs_set_length. }
        rewrite L2. exact L.
      * apply in_rev in Hs. pose proof (wf_scope _ Hw _ _ _ Hcl s Hs). pose proof (la_objs _ _ H2). lia.
    + intros Hs f' Hf'. apply Gf_closed with f; [|assumption]. apply Hc with a sc; [assumption|].
      unfold scoped, there in *. destruct a0 as [z|]; [|exact I]. destruct Hs as [Hs|Hs]; [lia|]. now apply in_rev in Hs.
Qed.
End Owner.

(** ** A variable that no function which can see it assigns keeps its value *)
Section Cell.
Variables (a0 c : nat) (x : name).
Variable Gf : fundef -> Prop.
Variable allowed : Prop.
Hypothesis Gf_closed : forall f, Gf f -> forall f', In f' (funs_s (body f)) -> Gf f'.
Hypothesis Gf_asg : allowed -> forall f, Gf f -> ~ In x (asg_s (body f)).
Definition cell_inv (m : mem) : Prop :=
  wf m /\ a0 < length (objs m) /\
  (allowed -> forall a f sc, closure_at m a f sc -> In a0 sc -> Gf f) /\
  c < length (cells m) /\ (forall a k, own_cell m a k = Some c -> a = a0 /\ k = x).
Definition cell_rel (m m' : mem) : Prop := later m m' /\ readc m' c = readc m c.
Definition cell_pm (m : mem) (en : list nat) (xs : list name) (fs : list fundef) : Prop :=
  (forall s, In s en -> s < length (objs m)) /\
  (In a0 en -> ~ In x xs /\ (allowed -> forall f, In f fs -> Gf f)).

Lemma cell_later m m' : cell_inv m -> later m m' -> c < length (cells m') /\ forall a k, own_cell m' a k = Some c -> a = a0 /\ k = x.
Proof.
  intros (Hw & Ha & Hc & Hl & Ho) L. pose proof (la_cells _ _ L). split; [lia|].
  intros a k H1. destruct (la_bind _ _ L _ _ _ H1) as [H2|H2]; [auto|lia].
Qed.
Lemma cell_grow m m' : cell_inv m -> grow m m' -> cell_inv m' /\ cell_rel m m'.
Proof.
  intros Hi G1. pose proof (grow_later _ _ G1) as L. destruct (cell_later m m' Hi L) as [H1 H2].
  destruct Hi as (Hw & Ha & Hc & Hl & Ho). split.
  - split; [now apply grow_wf with m|]. split; [pose proof (gr_objs _ _ G1); lia|]. split; [|split; assumption].
    intros Hal a f sc H. apply (Hc Hal a). eapply grow_closure; eassumption.
  - split; [assumption|]. destruct (gr_cells _ _ G1) as [l E]. unfold readc. rewrite E.
    now rewrite nth_error_app1 by assumption.
Qed.
Lemma first_with_in (m : mem) y en d : first_with m y en = Some d -> exists a, In a en /\ own_cell m a y = Some d.
Proof.
  induction en as [|a en IH]; cbn [first_with]; [discriminate|].
  destruct (own_cell m a y) eqn:E.
  - intros H. injection H as <-. exists a. split; [now left|assumption].
  - intros H. destruct (IH H) as (b & Hb & H2). exists b. split; [now right|assumption].
Qed.
Lemma cell_good : good cell_inv cell_rel cell_pm (fun d => d <> c) allowed.
Proof.
  constructor.
  - intros m. split; [apply later_refl|reflexivity].
  - intros m1 m2 m3 [L1 R1] [L2 R2]. split; [now apply later_trans with m2|congruence].
  - intros m en xs fs xs' fs' [H1 H2] Hx Hf. split; [assumption|]. intros Hs. destruct (H2 Hs) as [H3 H4]. split; [|auto].
    intros H. apply H3, Hx, H.
  - intros m m' en xs fs _ _ [HT _] [H1 H2]. split; [|assumption]. intros s Hs.
    pose proof (la_objs _ _ HT). pose proof (H1 s Hs). lia.
  - intros m v t m' Hi H. eapply cell_grow; [exact Hi|]. eapply grow_receiver; [apply Hi|eassumption].
  - intros m a k v Hi Hk. apply cell_grow; [exact Hi|]. apply grow_set, Hi.
  - intros m kvs Hi. apply cell_grow; [exact Hi|]. apply grow_literal, Hi.
  - intros m en y Hi _. apply cell_grow; [exact Hi|]. apply grow_resolve, Hi.
  - intros m en y (Hw & Ha & Hc & Hl & Ho) [H1 H2]. unfold resolve.
    destruct (first_with m y en) as [d|] eqn:E; cbn [fst]; [|lia]. intros ->.
    apply first_with_in in E. destruct E as (a & Hin & Ha'). destruct (Ho _ _ Ha') as [-> ->].
    destruct (H2 Hin) as [H3 _]. apply H3. now left.
  - intros m d v (Hw & Ha & Hc & Hl & Ho) Hd. 
    assert (HL : length (cells (writec m d v)) = length (cells m)) by (rewrite writec_set; cbn [set_cell cells]; apply upd_length).
    split.
    + split; [now apply write_wf|]. split; [exact Ha|]. split; [exact Hc|]. split; [lia|exact Ho].
    + split; [apply write_later|]. rewrite !readc_cell, writec_set. unfold cell, set_cell. cbn [cells].
      rewrite nth_upd. destruct (Nat.eqb_spec c d); [congruence|reflexivity].
  - intros m en f Hi [H1 H2]. destruct (cell_later m _ Hi (closure_later m en f)) as [H3 H4].
    destruct Hi as (Hw & Ha & Hc & Hl & Ho). split.
    + split; [now apply closure_wf|]. split; [pose proof (la_objs _ _ (closure_later m en f)); lia|]. split; [|split; assumption].
      intros Hal a f' sc H Hs. apply closure_closure in H. destruct H as [H|[-> ->]]; [eauto|].
      apply (H2 ltac:(now apply in_rev in Hs)); [assumption|]. rewrite funs_f_body. now left.
    + split; [apply closure_later|]. unfold readc. cbn [closure snd cells]. now rewrite nth_error_app1 by assumption.
  - intros Hal m isnew a f sc vs Hi Hcl.
    destruct (cell_grow m (entry_mem isnew a f vs m) Hi) as [H1 H2]; [apply grow_entry, Hi|].
    split; [assumption|]. split; [assumption|].
    pose proof Hi as Hi'. destruct Hi' as (Hw & Ha & Hc & Hl & Ho). split.
    + intros s Hs.
      assert (Q : own_inv None (fun _ => True) m) by (split; [exact Hw|split; [exact I|auto]]).
      destruct (g_enter _ _ _ _ _ (own_good None (fun _ => True) (fun _ _ _ _ => I)) I m isnew a f sc vs Q Hcl) as (_ & _ & [Q1 _]).
      auto.
    + intros Hin. assert (Hsc : In a0 sc) by (destruct Hin as [Hin|Hin]; [lia|now apply in_rev in Hin]).
      pose proof (Hc Hal _ _ _ Hcl Hsc) as Hg. split; [now apply Gf_asg|]. intros _ f' Hf'. now apply Gf_closed with f.
Qed.
End Cell.
End Own.
