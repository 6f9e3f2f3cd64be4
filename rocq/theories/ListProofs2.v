(** Taking an entry out of a list. *)
From Coq Require Import ZArith List Bool Lia.
Import ListNotations.
From Verif Require Import Bits LimitModel EventProofs4 ListModel ListSpec ListProofs.
Local Open Scope Z_scope.

Section L.
Variable V : Type.
Implicit Types (h : heap V) (s : state V) (q : list Z).
Notation en := (en V). Notation li := (li V). Notation nxt := (nxt V). Notation prv := (prv V). Notation own := (own V). Notation val := (val V).
Notation chain := (chain V). Notation keeps := (keeps V).

Lemma last_in : forall q x, last_of q = Some x -> In x q.
Proof. intros q x H. destruct (snoc_case q) as [->|(a & b & ->)]; [discriminate|]. rewrite last_of_snoc in H. injection H as <-. apply in_or_app. right. left. auto. Qed.
Lemma last_of_some : forall x q, exists y, last_of (x :: q) = Some y.
Proof. intros. destruct (snoc_case (x :: q)) as [E|(a & b & ->)]; [discriminate|]. rewrite last_of_snoc. eauto. Qed.

Lemma eqb_ne : forall a b, a <> b -> (a =? b) = false.
Proof. intros. apply Z.eqb_neq. auto. Qed.

(** What a removal leaves. *)
Record removed h l (q1 : list Z) (item : Z) (q2 : list Z) (P : option Z -> Prop) (n : Z) h' : Prop := {
  m_keep : keeps h h';
  m_out : forall y, ~ In y (q1 ++ item :: q2) -> en h' y = en h y;
  m_li : forall l', l' <> l -> li h' l' = li h l';
  m_hdr : exists x', li h' l = Some x' /\ num x' = wrap32 (n - 1) /\ head x' = hd_error (q1 ++ q2) /\
                     (q1 ++ q2 <> [] -> tail x' = last_of (q1 ++ q2));
  m_chain : chain h' (match q1 with [] => fun _ => True | _ => P end) (q1 ++ q2) None;
  m_item : exists e', en h' item = Some e' /\ nxt e' = None /\ prv e' = None }.

(** The last steps of Jsi_ListPop: the count, and the item's own pointers. *)
Lemma pop_end : forall h h1 l q1 item q2 P n x1 e1,
  keeps h h1 -> (forall y, ~ In y (q1 ++ item :: q2) -> en h1 y = en h y) -> (forall l', l' <> l -> li h1 l' = li h l') ->
  li h1 l = Some x1 -> num x1 = n -> head x1 = hd_error (q1 ++ q2) -> (q1 ++ q2 <> [] -> tail x1 = last_of (q1 ++ q2)) ->
  chain h1 (match q1 with [] => fun _ => True | _ => P end) (q1 ++ q2) None ->
  ~ In item (q1 ++ q2) -> en h1 item = Some e1 ->
  exists h', (match add_num V l (-1) h1 with Some h2 => match put_prv V item None h2 with Some h3 => put_nxt V item None h3 | None => None end | None => None end) = Some h' /\
    removed h l q1 item q2 P n h'.
Proof.
  intros h h1 l q1 item q2 P n x1 e1 K O OL X1 N H T C NI E1.
  unfold add_num. rewrite X1. unfold put_prv. look. rewrite E1. unfold put_nxt. look. eexists. split; [reflexivity|].
  constructor.
  - kp.
  - intros y Hy. assert (y <> item) by (intros ->; apply Hy; apply in_or_app; right; left; auto). look. auto.
  - intros l' Hl. look. auto.
  - look. eexists. split; [reflexivity|]. cbn [num head tail]. replace (num x1 + -1) with (n - 1) by lia. auto.
  - eapply chain_frame; [|exact C]. intros y Hy. assert (y <> item) by (intros ->; auto). look. reflexivity.
  - look. eexists. split; [reflexivity|]. auto.
Qed.

Lemma pop_heap : forall h P l q1 item q2 x,
  li h l = Some x -> head x = hd_error (q1 ++ item :: q2) -> tail x = last_of (q1 ++ item :: q2) ->
  NoDup (q1 ++ item :: q2) -> chain h P (q1 ++ item :: q2) None ->
  exists h', list_pop V l item h = Some h' /\ removed h l q1 item q2 P (num x) h'.
Proof.
  intros h P l q1 item q2 x X H T ND C.
  pose proof (NoDup_remove_1 _ _ _ ND) as ND1. pose proof (NoDup_remove_2 _ _ _ ND) as NI.
  assert (CI := C). apply chain_app in CI. destruct CI as [C1 C2]. cbn [ListProofs.chain first_or] in C1, C2.
  destruct C2 as ((e & E & EP & EN) & C2).
  unfold list_pop. rewrite X, E, H, T. rewrite last_of_app.
  destruct (snoc_case q1) as [->|(q1' & p & ->)].
  - cbn [app hd_error] in *. rewrite Z.eqb_refl. destruct q2 as [|y r].
    + cbn [last_of rev app]. rewrite Z.eqb_refl. unfold put_tail. rewrite X. unfold put_head. look. cbn [tail num].
      eapply pop_end with (q1 := []) (q2 := []); try (look; reflexivity); auto; look; cbn [head tail num]; auto; try reflexivity.
      * kp.
      * intros l' Hl. look. auto.
      * exact E.
    + rewrite last_of_cons. destruct (last_of_some y r) as (t & LT). rewrite LT.
      assert (item <> t) by (intros ->; apply NI; now apply last_in).
      rewrite eqb_ne by auto. rewrite E. unfold put_head. rewrite X.
      eapply pop_end with (q1 := []) (q2 := y :: r); try (look; reflexivity); cbn [app]; auto; look; cbn [head tail num]; auto.
      * kp.
      * intros l' Hl. look. auto.
      * intros _. rewrite T, last_of_cons. reflexivity.
      * eapply chain_frame; [|eapply chain_weak; [|exact C2]]; auto.
      * exact E.
  - unfold link_of in EP, C1. rewrite last_of_snoc in EP.
    assert (HD : exists a, hd_error ((q1' ++ [p]) ++ item :: q2) = Some a /\ a <> item /\ hd_error ((q1' ++ [p]) ++ q2) = Some a).
    { destruct q1' as [|a q1']; cbn [app hd_error] in *; eexists; (split; [reflexivity|]); (split; [|reflexivity]);
        intros ->; apply NI; left; auto. }
    destruct HD as (a & HD & NA & HD'). rewrite HD. rewrite eqb_ne by auto.
    assert (NP : p <> item) by (intros ->; apply NI; rewrite !in_app_iff; left; right; left; auto).
    assert (NPQ : ~ In p q1' /\ ~ In p q2).
    { rewrite <- app_assoc in ND1. cbn [app] in ND1. apply NoDup_remove_2 in ND1. rewrite in_app_iff in ND1. tauto. }
    destruct (chain_live V h (q1' ++ [p]) P (Some item) p C1) as (ep & PE); [apply in_or_app; right; left; auto|].
    destruct q2 as [|y r].
    + cbn [last_of rev app]. rewrite Z.eqb_refl. rewrite E, <- EP. unfold put_tail. rewrite X. unfold put_nxt at 1. look. rewrite PE.
      eapply pop_end with (q1 := q1' ++ [p]) (q2 := []); try (look; reflexivity); auto; try (look; cbn [head tail num]; auto).
      * kp.
      * intros z Hz. assert (z <> p) by (intros ->; apply Hz; rewrite !in_app_iff; left; right; left; auto). look. auto.
      * intros l' Hl. look. auto.
      * rewrite HD', H. auto.
      * intros _. rewrite app_nil_r, last_of_snoc. auto.
      * rewrite app_nil_r. destruct (q1' ++ [p]) as [|z zs] eqn:Q; [destruct q1'; discriminate|]. rewrite <- Q in *.
        eapply chain_last; [| | |exact C1]; [tauto| |].
        -- intros z' Hz. assert (z' <> p) by (intros ->; tauto). look. auto.
        -- intros e0 E0. look. eexists. split; [reflexivity|]. cbn. split; congruence.
      * exact E.
    + rewrite last_of_cons. destruct (last_of_some y r) as (t & LT). rewrite LT.
      assert (item <> t) by (intros ->; apply NI; apply in_or_app; right; now apply last_in).
      rewrite eqb_ne by auto. rewrite <- EP. unfold put_nxt at 1. rewrite PE. rewrite EN. unfold put_prv at 1.
      assert (NYP : y <> p) by (intros ->; apply NPQ; left; auto).
      assert (NYI : y <> item) by (intros ->; apply NI; rewrite !in_app_iff; right; left; auto).
      destruct (chain_live V h (y :: r) _ _ y C2 (or_introl eq_refl)) as (ey & YE). look. rewrite YE.
      eapply pop_end with (q1 := q1' ++ [p]) (q2 := y :: r); try (look; reflexivity); auto; try (look; cbn [head tail num]; auto).
      * kp.
      * intros z Hz. rewrite !in_app_iff in Hz. cbn [In] in Hz. assert (z <> p /\ z <> y /\ z <> item) by (repeat split; intros ->; tauto).
        destruct H1 as (? & ? & ?). look. auto.
      * congruence.
      * intros _. rewrite T, !last_of_app, last_of_cons. auto.
      * destruct (q1' ++ [p]) as [|z zs] eqn:Q; [destruct q1'; discriminate|]. rewrite <- Q in *. apply chain_app. cbn [first_or]. split.
        -- eapply chain_last; [| | |exact C1]; [tauto| |].
           ++ intros z' Hz. assert (z' <> p) by (intros ->; tauto).
              assert (z' <> y). { intros ->. rewrite <- app_assoc in ND1. cbn [app] in ND1.
                clear - ND1 Hz. induction q1' as [|w q1' IH]; [destruct Hz|]. cbn [app] in ND1. inversion ND1; subst. destruct Hz as [->|Hz]; auto.
                apply H1. rewrite in_app_iff. right. right. left. auto. }
              look. auto.
           ++ intros e0 E0. look. eexists. split; [reflexivity|]. cbn. split; congruence.
        -- unfold link_of. rewrite last_of_snoc.
           assert (NY : ~ In y r).
           { clear - ND1. rewrite <- app_assoc in ND1. cbn [app] in ND1. induction q1' as [|w q1' IH]; cbn [app] in ND1.
             - inversion ND1; subst. inversion H2; subst. auto.
             - inversion ND1; subst. auto. }
           eapply chain_first; [exact NY| | |exact C2].
           ++ intros z' Hz. assert (z' <> p) by (intros ->; apply NPQ; right; auto). assert (z' <> y) by (intros ->; auto). look. auto.
           ++ intros e0 E0. look. eexists. split; [reflexivity|]. cbn. split; congruence.
      * exact E.
Qed.
End L.
