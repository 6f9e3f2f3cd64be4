(** Passes whose callbacks leave the event table alone: exactly the due events run. *)
From Coq Require Import ZArith List Bool Lia Permutation.
Import ListNotations.
From Verif Require Import TreeModel TreeSpec HashModel HashSpec HashProofs HashProps Bits LimitModel EventModel EventSpec EventProofs EventProofs2 EventProofs3 EventProofs4 EventProofs5.
Local Open Scope Z_scope.

Notation hstate := (at_state (K := Z) (V := event)).
Definition todo_list (t : etable) (hs : hsearch) (c : list eentry) : list eentry :=
  c ++ concat (skipn (nextIndex hs) (buckets t)).

Lemma concat_at : forall A (bs : list (list A)) i x, (0 < i <= length bs)%nat -> nth (pred i) bs [] = x ->
  concat bs = concat (firstn (pred i) bs) ++ x ++ concat (skipn i bs).
Proof.
  induction bs as [|b bs IH]; intros [|i] x H E; simpl in *; try lia.
  destruct i as [|i]; [simpl in *; now rewrite E|].
  cbn [firstn concat]. cbn [pred nth] in E. rewrite <- app_assoc. f_equal. change i with (pred (S i)) at 1. apply IH; [lia|exact E].
Qed.

Section Pos.
Variables (t : etable) (hs' : hsearch) (e : eentry) (c' pre : list eentry).
Hypothesis HI : hinv t.
Hypothesis HA : hstate t hs' c'.
Hypothesis HX : (0 < nextIndex hs' <= length (buckets t))%nat.
Hypothesis HE : nth (pred (nextIndex hs')) (buckets t) [] = pre ++ e :: c'.

Lemma pos_miss : forall x, In x (todo_list t hs' c') -> hptr x <> hptr e.
Proof.
  intros x Hx E. pose proof (iv_ptrs _ _ _ HI) as N. unfold ents in N.
  rewrite (concat_at _ _ _ _ HX HE) in N. rewrite <- app_assoc, map_app in N. apply nodup_app_r in N.
  rewrite map_app in N. apply nodup_app_r in N. cbn [app map] in N. inversion N as [|a l H1 H2]; subst.
  apply H1. rewrite <- E. now apply in_map.
Qed.
Lemma map_setv_miss : forall v (l : list eentry), (forall x, In x l -> hptr x <> hptr e) -> map (setv (hptr e) v) l = l.
Proof.
  induction l as [|x l IH]; simpl; intros H; auto. rewrite setv_miss by auto. f_equal. auto.
Qed.
Lemma pos_value_set : forall v,
  hstate (value_set (hptr e) v t) hs' c' /\ todo_list (value_set (hptr e) v t) hs' c' = todo_list t hs' c' /\
  (0 < nextIndex hs' <= length (buckets (value_set (hptr e) v t)))%nat /\
  exists pre', nth (pred (nextIndex hs')) (buckets (value_set (hptr e) v t)) [] =
               pre' ++ mkH (hptr e) (hkey e) (hval e) v :: c'.
Proof.
  intros v. pose proof pos_miss as M. unfold todo_list in M.
  assert (MC : map (setv (hptr e) v) c' = c') by (apply map_setv_miss; intros x Hx; apply M; apply in_or_app; auto).
  assert (B : nth (pred (nextIndex hs')) (buckets (value_set (hptr e) v t)) [] =
              map (setv (hptr e) v) pre ++ mkH (hptr e) (hkey e) (hval e) v :: c').
  { replace (buckets (value_set (hptr e) v t)) with (map (map (setv (hptr e) v)) (buckets t)) by reflexivity.
    change (@nil eentry) with (map (setv (K := Z) (hptr e) v) []) at 1.
    rewrite (map_nth (map (setv (hptr e) v))), HE, map_app. cbn [map]. now rewrite MC, setv_hit. }
  split; [|split; [|split]].
  - destruct HA as [A1 A2]. split; auto. right. exists (map (setv (hptr e) v) pre ++ [mkH (hptr e) (hkey e) (hval e) v]).
    split; [cbn [value_set buckets]; rewrite map_length; exact HX|]. rewrite B, <- app_assoc. reflexivity.
  - unfold todo_list. f_equal.
    replace (buckets (value_set (hptr e) v t)) with (map (map (setv (hptr e) v)) (buckets t)) by reflexivity.
    rewrite skipn_map.
    rewrite <- concat_map. apply map_setv_miss. intros x Hx. apply M. apply in_or_app; auto.
  - cbn [value_set buckets]. rewrite map_length. exact HX.
  - exists (map (setv (hptr e) v) pre). exact B.
Qed.
Lemma pos_delete : exists t', entry_delete oneword_kind e t = Some t' /\ hinv t' /\
  hstate t' hs' c' /\ todo_list t' hs' c' = todo_list t hs' c'.
Proof.
  assert (He : In e (ents t)) by (eapply in_concat_nth'; rewrite HE; apply in_or_app; right; left; auto).
  destruct (delete_ok PK oneword_kind GK t e HI He) as (t1 & D1 & I1 & PE & _ & _ & i & l1 & l2 & Hi & Hn & Hb).
  exists t1. split; auto. split; auto.
  assert (HI2 : i = pred (nextIndex hs')).
  { destruct (iv_place _ _ _ HI i e) as (_ & _ & X); [rewrite Hn; apply in_or_app; right; left; auto|].
    destruct (iv_place _ _ _ HI (pred (nextIndex hs')) e) as (_ & _ & Y); [rewrite HE; apply in_or_app; right; left; auto|].
    congruence. }
  rewrite HI2, HE in Hn.
  destruct (app_inj_nodup e pre c' l1 l2) as [<- <-]; auto.
  { rewrite <- HE. apply NoDup_nth_map. apply (iv_ptrs _ _ _ HI). }
  assert (ES : skipn (nextIndex hs') (buckets t1) = skipn (nextIndex hs') (buckets t)).
  { rewrite Hb. apply skipn_upd. lia. }
  split; [|unfold todo_list; now rewrite ES].
  destruct HA as [A'1 A'2]. split; auto. right. exists pre. rewrite Hb, upd_length. split; auto.
  rewrite <- HI2. rewrite nth_upd_eq by auto. auto.
Qed.
End Pos.

Definition due (cur ni : Z) (e : eentry) : bool :=
  match hdata e with
  | Some ev => negb (ni <? wrap32 (hkey e)) && negb (match ekind ev with KTimer => not_due cur ev | KAlways => false end)
  | None => false
  end.

Lemma quiet_acts : forall acts f s, Forall quiet acts -> (length acts < f)%nat ->
  exists s', run_acts f acts s = Ok s' /\ tbl s' = tbl s /\ log s' = log s /\ script s' = script s.
Proof.
  induction acts as [|a acts IH]; intros [|f] s HQ HF; simpl in HF; try lia; cbn [run_acts].
  - exists s. auto.
  - inversion HQ as [|a' l [d ->] HQ']; subst. cbn [rbind].
    destruct (IH f (mkSt (tbl s) (evIdx s) (hdlId s) (now s + d) (script s) (passes s) (log s)) HQ') as (s' & A & B & C & D); [lia|].
    exists s'. auto.
Qed.

(** After a callback that left the table alone. *)
Lemma quiet_after : forall cur t hs' e c' pre s4 ev1,
  hinv t -> hstate t hs' c' -> (0 < nextIndex hs' <= length (buckets t))%nat ->
  nth (pred (nextIndex hs')) (buckets t) [] = pre ++ e :: c' ->
  tbl s4 = value_set (hptr e) (Some ev1) t ->
  exists s5, after_call cur (hptr e) s4 = Ok s5 /\ hinv (tbl s5) /\ hstate (tbl s5) hs' c' /\
    todo_list (tbl s5) hs' c' = todo_list t hs' c' /\ log s5 = log s4 /\ script s5 = script s4.
Proof.
  intros cur t hs' e c' pre s4 ev1 I A X E T4.
  assert (He : In e (ents t)) by (eapply in_concat_nth'; rewrite E; apply in_or_app; right; left; auto).
  pose proof (inv_value_set PK oneword_kind (hptr e) (Some ev1) t I) as I4. rewrite <- T4 in I4.
  unfold after_call.
  assert (AP : at_ptr (hptr e) s4 = Some (mkH (hptr e) (hkey e) (hval e) (Some ev1))).
  { unfold at_ptr. fold (ents (tbl s4)).
    assert (IN : In (mkH (hptr e) (hkey e) (hval e) (Some ev1)) (ents (tbl s4))).
    { rewrite T4, ents_value_set, <- setv_hit. now apply in_map. }
    destruct (find (fun e0 => Nat.eqb (hptr e0) (hptr e)) (ents (tbl s4))) as [e4|] eqn:F.
    - apply find_some in F. destruct F as [F1 F2]. apply Nat.eqb_eq in F2. f_equal.
      eapply NoDup_map_inj with (f := hptr); [apply (iv_ptrs _ _ _ I4)|auto|auto|auto].
    - eapply find_none in F; [|exact IN]. cbn [hptr] in F. rewrite Nat.eqb_refl in F. discriminate. }
  rewrite AP. cbn [hdata]. cbn [eonce with_busy]. destruct (eonce ev1).
  - unfold event_free. cbn [hptr].
    change (tbl (set_event (hptr e) (with_busy false ev1) s4)) with (value_set (hptr e) (Some (with_busy false ev1)) (tbl s4)).
    rewrite T4, !value_set_twice.
    destruct (pos_value_set t hs' e c' pre I A X E None) as (A1 & T1 & X1 & pre' & E1).
    pose proof (inv_value_set PK oneword_kind (hptr e) None t I) as I1.
    destruct (pos_delete _ _ _ _ _ I1 A1 X1 E1) as (t' & D & I' & A' & T').
    rewrite (delete_data _ (mkH (hptr e) (hkey e) (hval e) None)) by reflexivity. rewrite D.
    eexists. split; [reflexivity|]. cbn [with_tbl tbl log script set_event]. 
    split; [auto|]. split; [exact A'|]. split; [congruence|]. auto.
  - eexists. split; [reflexivity|]. cbn [set_event with_tbl tbl log script]. rewrite T4, !value_set_twice.
    destruct (pos_value_set t hs' e c' pre I A X E (Some (with_due (due_at cur (einitial ev1)) (with_busy false ev1)))) as (A1 & T1 & _).
    split; [now apply inv_value_set|]. auto.
Qed.

Lemma quiet_walk : forall N L cur ni n hs c s cnt m f,
  hinv (tbl s) -> hstate (tbl s) hs c -> Forall idle (todo_list (tbl s) hs c) ->
  Forall (fun a => Forall quiet a /\ (length a <= L)%nat) (script s) -> m < 0 ->
  length (todo_list (tbl s) hs c) = N -> (N + L + 1 < f)%nat ->
  exists x s', walk f m cur ni n cnt hs s = Ok (x, s') /\
    log s' = rev (map (fun e => ORun (hkey e) n cur) (filter (due cur ni) (todo_list (tbl s) hs c))) ++ log s.
Proof.
  induction N as [|N IH]; intros L cur ni n hs c s cnt m f I A HI HQ Hm HN HF;
    (destruct f as [|f]; [lia|]); cbn [walk]; pose proof (next_ok PK oneword_kind (tbl s) hs c I A) as HX; cbv zeta in HX;
    fold (todo_list (tbl s) hs c) in HX; destruct (hash_next (tbl s) hs) as [|e hs'|]; try contradiction.
  - rewrite HX. exists cnt, s. auto.
  - destruct HX as (c' & _ & E & _). rewrite E in HN. discriminate.
  - rewrite HX in HN. discriminate.
  - destruct HX as (c' & A' & E & He & pre & X & HE). fold (todo_list (tbl s) hs' c') in E. rewrite E in *. cbn [length] in HN.
    injection HN as HN. inversion HI as [|e0 l0 HIe HI']; subst e0 l0.
    assert (SKIP : forall cnt', exists x s', walk f m cur ni n cnt' hs' s = Ok (x, s') /\
       log s' = rev (map (fun e => ORun (hkey e) n cur) (filter (due cur ni) (todo_list (tbl s) hs' c'))) ++ log s).
    { intros cnt'. apply (IH L); auto. lia. }
    cbn [filter]. unfold due at 1. destruct (hdata e) as [ev|] eqn:Hd; [|apply SKIP].
    destruct (ni <? wrap32 (hkey e)); cbn [negb andb]; [apply SKIP|].
    match goal with |- context [if ?b then _ else _] => destruct b end; cbn [negb]; [apply SKIP|].
    set (timer := match ekind ev with KTimer => true | KAlways => false end).
    set (ev1 := if timer then counted ev else ev).
    assert (HB : ebusy ev1 = false) by (unfold ev1; destruct timer; [simpl|]; auto).
    rewrite HB.
    match goal with |- context [next_acts ?z] => set (s2 := z); destruct (next_acts s2) as [acts s3] eqn:NA end.
    assert (QA : Forall quiet acts /\ (length acts <= L)%nat /\ Forall (fun a => Forall quiet a /\ (length a <= L)%nat) (script s3)).
    { unfold next_acts in NA. change (script s2) with (script s) in NA.
      destruct (script s) as [|a r] eqn:SC; injection NA as <- <-.
      - simpl. split; [auto|]. split; [lia|]. rewrite SC. constructor.
      - inversion HQ as [|a' r' [Q1 Q2] Q3]; subst. auto. }
    destruct QA as (QA1 & QA2 & QA3).
    apply next_acts_same in NA. destruct NA as (N1 & _ & _ & N4 & _).
    destruct (quiet_acts acts f s3 QA1) as (s4 & R4 & T4 & L4 & S4); [lia|].
    rewrite R4. cbn [rbind].
    assert (T4' : tbl s4 = value_set (hptr e) (Some (with_busy true ev1)) (tbl s)).
    { rewrite T4, N1. apply value_set_twice. }
    destruct (quiet_after cur (tbl s) hs' e c' pre s4 _ I A' X HE T4') as (s5 & R5 & I5 & A5 & TD5 & L5 & S5).
    rewrite R5. cbn [rbind].
    replace ((0 <=? m) && _) with false by (symmetry; apply andb_false_iff; left; apply Z.leb_gt; lia).
    destruct (IH L cur ni n hs' c' s5 (if timer then cnt + 1 else cnt) m f I5 A5) as (x & s' & W & LW); auto.
    { rewrite TD5; auto. } { rewrite S5, S4; auto. } { rewrite TD5; auto. } { lia. }
    exists x, s'. split; auto. rewrite LW, TD5, L5, L4, N4. cbn [map rev]. rewrite <- app_assoc. reflexivity.
Qed.
