(** * Simulation of statements by the VM: outcomes, loops and jumps. *)
Require Import ZArith List Bool Lia.
From Verif Require Import VmModel VmSpec VmProofs VmProofs2.
Import ListNotations.
Local Open Scope Z_scope.

Section Sim3.
Context {VS : vsys}.
Notation V := (val VS).
Notation st := (@state VS).
Notation code := (list (@instr VS)).
Notation cfg := (@cfg VS).

Lemma hit_mine : forall l w, label_hit l w = mine l w.
Proof. intros [a | ] [b | ]; reflexivity. Qed.

(** ** reserved_replace *)
Lemma zlen_rr_at : forall len step bo w tp (c : code) i, zlen (rr_at len step bo w tp i c) = zlen c.
Proof. induction c as [ | a c IH]; intros i; cbn [rr_at]; rewrite ?zlen_cons, ?IH; reflexivity. Qed.
Lemma zlen_rr : forall (c : code) step bo w tp, zlen (reserved_replace c step bo w tp) = zlen c.
Proof. intros. apply zlen_rr_at. Qed.

Definition kshift (n : nat) (r : option (Z * nat)) : option (Z * nat) :=
  match r with Some (t, m) => Some (t, (m + n)%nat) | None => None end.
(* the jump table inside a loop body at [p] of length [len] *)
Definition kloop (p len step : Z) (bo : bool) (w : option nat) (tp : nat) (K : ktab) : ktab :=
  fun k l => if keep bo w (k, l) then kshift tp (K k l)
             else match k with KBreak => Some (p + len + step, 0%nat) | KContinue => Some (p + len, 0%nat) end.

Lemma rr_cat : forall (P : code) K len step bo w tp (c : code) i p,
  cat P K (p + i) (rr_at len step bo w tp i c) -> cat P (kloop p len step bo w tp K) (p + i) c.
Proof.
  induction c as [ | a c IH]; intros i p H; [exact I | ].
  cbn [rr_at cat] in *. destruct H as [H1 H2]. split.
  - destruct a; cbn [rr1 ins_at] in *; try exact H1.
    unfold kloop, keep. rewrite hit_mine in H1. destruct (mine l w) eqn:EM; destruct k; cbn [negb orb] in *.
    + rewrite Nat.add_0_r. replace (p + len + step - (p + i)) with (step + len - i) by lia.
      destruct topop; exact H1.
    + destruct bo; cbn [orb] in *.
      * cbn [ins_at] in H1. destruct (K KContinue l) as [[tg m] | ]; cbn [kshift]; [ | exact I].
        rewrite H1. do 2 f_equal; lia.
      * rewrite Nat.add_0_r. replace (p + len - (p + i)) with (len - i) by lia. destruct topop; exact H1.
    + cbn [ins_at] in H1. destruct (K KBreak l) as [[tg m] | ]; cbn [kshift]; [ | exact I].
      rewrite H1. do 2 f_equal; lia.
    + rewrite orb_true_r. cbn [ins_at] in H1. destruct (K KContinue l) as [[tg m] | ]; cbn [kshift]; [ | exact I].
      rewrite H1. do 2 f_equal; lia.
  - replace (p + i + 1) with (p + (i + 1)) in * by lia. apply IH. exact H2.
Qed.

Lemma cat_rr : forall (P : code) K step bo w tp (c : code) p,
  cat P K p (reserved_replace c step bo w tp) -> cat P (kloop p (zlen c) step bo w tp K) p c.
Proof. intros. pose proof (rr_cat P K (zlen c) step bo w tp c 0 p) as H0. rewrite Z.add_0_r in H0. apply H0. exact H. Qed.

(** ** Outcomes *)
Definition jumps (P : code) (c0 : cfg) (p L : Z) (K : ktab) (k : kind) (l : option nat)
  (s : list (@slot VS)) (x : st) (t : list tryent) : Prop :=
  exists c q tg m, reach P 0 c0 c /\ p <= q < p + L /\ K k l = Some (tg, m) /\
    step P c = do_jump q (tg - 1) (skipn m s) x t.
Definition halts (P : code) (c0 : cfg) (h : @halt VS) (x : st) : Prop :=
  exists c, reach P 0 c0 c /\ step P c = Halt h x.

Definition post (P : code) (c0 : cfg) (p L : Z) (K : ktab) (s : list (@slot VS)) (x : st) (t : list tryent) (o : @lout VS) : Prop :=
  match o with
  | LNorm => reach P 0 c0 (mkcfg (p + L) s x t)
  | LBrk l => jumps P c0 p L K KBreak l s x t
  | LCnt l => jumps P c0 p L K KContinue l s x t
  | LRet v => halts P c0 (HRet v) x
  | LThr b => throws P c0 p L s x t b
  | LAbort => halts P c0 HErr x
  end.

Definition Kok (K : ktab) (p L : Z) (s : list (@slot VS)) : Prop :=
  forall k l tg m, K k l = Some (tg, m) -> p + L <= tg /\ (m <= length s)%nat.

Lemma reach0 : forall (P : code) m c c', reach P m c c' -> reach P 0 c c'.
Proof. intros. eapply reach_weak; eauto. lia. Qed.

Lemma halts_pre : forall (P : code) m c0 c1 h x, reach P m c0 c1 -> halts P c1 h x -> halts P c0 h x.
Proof. intros P m c0 c1 h x R [c [R2 E]]. exists c. split; auto. eapply reach_trans0; eauto. Qed.

Lemma post_pre : forall (P : code) m c0 c1 p L K s x t o, reach P m c0 c1 -> post P c1 p L K s x t o -> post P c0 p L K s x t o.
Proof.
  intros P m c0 c1 p L K s x t o R H. destruct o; cbn [post] in *.
  - eapply reach_trans0; eauto.
  - destruct H as [c [q [tg [n [R2 H]]]]]. exists c, q, tg, n. split; [eapply reach_trans0; eauto | exact H].
  - destruct H as [c [q [tg [n [R2 H]]]]]. exists c, q, tg, n. split; [eapply reach_trans0; eauto | exact H].
  - eapply halts_pre; eauto.
  - eapply throws_pre with (Y := []); eauto; lia.
  - eapply halts_pre; eauto.
Qed.

(* an abrupt outcome of a part is one of the whole *)
Lemma post_sub : forall (P : code) c0 p1 L1 p L K s x t o,
  post P c0 p1 L1 K s x t o -> o <> LNorm -> p <= p1 -> p1 + L1 <= p + L -> post P c0 p L K s x t o.
Proof.
  intros P c0 p1 L1 p L K s x t o H HN H1 H2. destruct o; cbn [post] in *; try congruence.
  - destruct H as [c [q [tg [n [R2 [Hq H]]]]]]. exists c, q, tg, n. repeat split; try tauto; lia.
  - destruct H as [c [q [tg [n [R2 [Hq H]]]]]]. exists c, q, tg, n. repeat split; try tauto; lia.
  - eapply throws_pre with (Y := []) (p1 := p1) (L1 := L1); [apply reach_refl | exact H | lia | lia].
Qed.

(* the same, for a part that runs with the extra slots Y on the stack *)
Inductive dest := DEnd | DBreak | DOut (o : @lout VS).
Definition dest_of (bo : bool) (w : option nat) (o : @lout VS) : dest :=
  match o with
  | LNorm => DEnd
  | LBrk l => if label_hit l w then DBreak else DOut o
  | LCnt l => if negb bo && label_hit l w then DEnd else DOut o
  | _ => DOut o
  end.

Lemma lafter_dest : forall w o, lafter w o = match dest_of false w o with DEnd => inl tt | DBreak => inr LNorm | DOut o => inr o end.
Proof. intros w o. destruct o; cbn; try reflexivity; destruct (label_hit l w); reflexivity. Qed.

Lemma dest_out : forall bo w o o', dest_of bo w o = DOut o' -> o' = o /\ o <> LNorm.
Proof.
  intros bo w o o' H. destruct o; cbn in H; try discriminate H; try (injection H as <-; split; congruence).
  - destruct (label_hit l w); [discriminate H | injection H as <-; split; congruence].
  - destruct (negb bo && label_hit l w); [discriminate H | injection H as <-; split; congruence].
Qed.

Lemma post_body : forall (P : code) c0 p1 L1 p L K s x t o step bo w Y,
  post P c0 p1 L1 (kloop p1 L1 step bo w (length Y) K) (Y ++ s) x t o ->
  encl t p L -> p <= p1 -> p1 + L1 + step <= p + L -> 0 <= step -> 0 <= L1 ->
  match dest_of bo w o with
  | DEnd => reach P 0 c0 (mkcfg (p1 + L1) (Y ++ s) x t)
  | DBreak => reach P 0 c0 (mkcfg (p1 + L1 + step) (Y ++ s) x t)
  | DOut o' => post P c0 p L K s x t o'
  end.
Proof.
  intros P c0 p1 L1 p L K s x t o step bo w Y H HE H1 H2 H3 H4.
  destruct o; cbn [post dest_of] in *.
  - exact H.
  - destruct H as [c [q [tg [m [R [Hq [HK E]]]]]]]. unfold kloop, keep in HK. rewrite hit_mine.
    destruct (mine l w); cbn [negb] in HK.
    + injection HK as <- <-. cbn [skipn] in E.
      erewrite do_jump_in in E; [ | exact HE | lia].
      replace (p1 + L1 + step - 1 + 1) with (p1 + L1 + step) in E by lia.
      eapply reach_trans0; [exact R | eapply reach_step; exact E].
    + cbn [post]. destruct (K KBreak l) as [[tg' m'] | ] eqn:EK; [ | discriminate HK]. cbn [kshift] in HK. injection HK as <- <-.
      exists c, q, tg', m'. split; [exact R | split; [lia | split; [exact EK | ]]].
      rewrite E. f_equal. rewrite skipn_app.
      rewrite skipn_all2 by lia. cbn [app]. f_equal. lia.
  - destruct H as [c [q [tg [m [R [Hq [HK E]]]]]]]. unfold kloop, keep in HK. rewrite hit_mine.
    destruct bo; cbn [negb andb orb] in *.
    + cbn [post]. destruct (K KContinue l) as [[tg' m'] | ] eqn:EK; [ | discriminate HK]. cbn [kshift] in HK. injection HK as <- <-.
      exists c, q, tg', m'. split; [exact R | split; [lia | split; [exact EK | ]]].
      rewrite E. f_equal. rewrite skipn_app.
      rewrite skipn_all2 by lia. cbn [app]. f_equal. lia.
    + destruct (mine l w); cbn [negb] in HK.
      * injection HK as <- <-. cbn [skipn] in E.
        erewrite do_jump_in in E; [ | exact HE | lia].
        replace (p1 + L1 - 1 + 1) with (p1 + L1) in E by lia.
        eapply reach_trans0; [exact R | eapply reach_step; exact E].
      * cbn [post]. destruct (K KContinue l) as [[tg' m'] | ] eqn:EK; [ | discriminate HK]. cbn [kshift] in HK. injection HK as <- <-.
        exists c, q, tg', m'. split; [exact R | split; [lia | split; [exact EK | ]]].
        rewrite E. f_equal. rewrite skipn_app.
        rewrite skipn_all2 by lia. cbn [app]. f_equal. lia.
  - exact H.
  - cbn [post]. eapply throws_pre with (Y := Y); [apply reach_refl | exact H | lia | lia].
  - exact H.
Qed.

Lemma Kok_loop : forall K p L s p1 L1 step bo w Y,
  Kok K p L s -> p1 + L1 <= p + L -> 0 <= step -> Kok (kloop p1 L1 step bo w (length Y) K) p1 L1 (Y ++ s).
Proof.
  intros K p L s p1 L1 step bo w Y H H1 H2 k l tg m HK. unfold kloop in HK. rewrite app_length.
  destruct (keep bo w (k, l)).
  - destruct (K k l) as [[tg' m'] | ] eqn:EK; [ | discriminate HK]. cbn [kshift] in HK. injection HK as <- <-.
    destruct (H _ _ _ _ EK). lia.
  - destruct k; injection HK as <- <-; lia.
Qed.

Lemma Kok_sub : forall K p L s p1 L1, Kok K p L s -> p1 + L1 <= p + L -> Kok K p1 L1 s.
Proof. intros K p L s p1 L1 H H1 k l tg m HK. destruct (H _ _ _ _ HK). lia. Qed.

(* every jump that leaves has a target *)
Definition Kall (K : ktab) (js : list (kind * option nat)) : Prop := forall k l, In (k, l) js -> K k l <> None.
Lemma Kall_app : forall K a b, Kall K (a ++ b) -> Kall K a /\ Kall K b.
Proof. intros K a b H. split; intros k l HI; apply H; apply in_or_app; auto. Qed.
Lemma Kall_loop : forall K js p1 L1 step bo w tp, Kall K (filter (keep bo w) js) -> Kall (kloop p1 L1 step bo w tp K) js.
Proof.
  intros K js p1 L1 step bo w tp H k l HI. unfold kloop. destruct (keep bo w (k, l)) eqn:EK.
  - assert (HF : In (k, l) (filter (keep bo w) js)) by (apply filter_In; auto).
    specialize (H _ _ HF). destruct (K k l) as [[tg m] | ]; cbn; congruence.
  - destruct k; congruence.
Qed.
(* pops are what exits_ok thinks they are *)
Definition Kpops (K : ktab) (pops : kind -> option nat -> nat) : Prop := forall k l tg m, K k l = Some (tg, m) -> pops k l = m.
Lemma Kpops_loop : forall K pops p1 L1 step bo w tp, Kpops K pops ->
  Kpops (kloop p1 L1 step bo w tp K) (loop_pops bo w tp pops).
Proof.
  intros K pops p1 L1 step bo w tp H k l tg m HK. unfold kloop, loop_pops in *. destruct (keep bo w (k, l)).
  - destruct (K k l) as [[tg' m'] | ] eqn:EK; [ | discriminate HK]. cbn [kshift] in HK. injection HK as <- <-.
    f_equal. eapply H; eauto.
  - destruct k; injection HK as <- <-; reflexivity.
Qed.

(** ** Loops *)
Lemma iter_sim : forall X R (P : code) (f : nat) (one : X -> option (X + R)) (cf : X -> cfg) (Post : cfg -> R -> Prop),
  (forall m c c' r, reach P m c c' -> Post c' r -> Post c r) ->
  (forall x, match one x with
             | Some (inl x') => reach P 1 (cf x) (cf x')
             | Some (inr r) => Post (cf x) r
             | None => exists c', reach P f (cf x) c'
             end) ->
  forall k x, match iterate k one x with
              | Some r => Post (cf x) r
              | None => exists c', reach P (min k f) (cf x) c'
              end.
Proof.
  intros X R P f one cf Post HP H1. induction k as [ | k IH]; intros x; cbn [iterate].
  - exists (cf x). apply reach_refl.
  - specialize (H1 x). destruct (one x) as [[x' | r] | ].
    + specialize (IH x'). destruct (iterate k one x') as [r | ].
      * eapply HP; eauto.
      * destruct IH as [c' R2]. exists c'. eapply reach_weak; [eapply reach_trans; eauto | lia].
    + exact H1.
    + destruct H1 as [c' R2]. exists c'. eapply reach_weak; [exact R2 | lia].
Qed.

End Sim3.
