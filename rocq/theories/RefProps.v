(** C28: reference counts.  Values and objects live exactly as long as somebody holds them. *)
From Coq Require Import ZArith List Bool Lia Relations.
Import ListNotations.
From Verif Require Import Bits RefModel RefSpec RefProofs RefProofs2 RefProofs3 RefProofs4 RefProofs5 RefProofs6 RefProofs7.
Local Open Scope Z_scope.

(** The heap holds the cells of the state, and every count is the number of holders. *)
Definition exact (h : heap) (s : state) : Prop :=
  cells s = map (option_map bd) h /\ forall a c, nth a h None = Some c -> cnt c = holders s a.
(** No cell refers to itself through others: there are no circles. *)
Definition acyclic (s : state) : Prop := forall a, ~ clos_trans nat (refers s) a a.
(** The calls of [cs] were made one after the other, and did what they are meant to do. *)
Definition outcome (max : nat) (cs : list call) (h : heap) (s : state) : Prop :=
  exists rs, run max cs [] = Ok (h, rs) /\ steps max cs start rs s.

Lemma history max cs : keeps_rules max cs start -> exists h s, outcome max cs h s /\ Rep h s.
Proof.
  intro K. destruct (every_history max cs [] start rep_start K) as (h & rs & s & P & S & R).
  exists h, s. split; auto. exists rs. auto.
Qed.
Lemma rep_exact h s : Rep h s -> exact h s.
Proof.
  intro R. split; [apply R|]. intros a c G. rewrite <- get_nth in G. symmetry. eapply rep_holders; eauto.
Qed.

(** No history that keeps the rules accesses a freed cell, frees one twice or overflows a count;
    every call has the effect it should have, after which the cells nobody holds any more, and no
    others, are freed; and the counts are the numbers of holders. *)
Theorem reference_counts_are_exact max cs : keeps_rules max cs start ->
  exists h s, outcome max cs h s /\ exact h s.
Proof.
  intro K. destruct (history max cs K) as (h & s & O & R). exists h, s. split; auto. apply rep_exact; auto.
Qed.
(** Everything the program can get at is there. *)
Theorem nothing_in_use_is_freed max cs : keeps_rules max cs start ->
  exists h s, outcome max cs h s /\ exact h s /\
    forall a, reachable s a -> exists c, nth a h None = Some c.
Proof.
  intro K. destruct (history max cs K) as (h & s & O & R). exists h, s. split; auto. split; [apply rep_exact; auto|].
  intros a A. rewrite <- get_nth. eapply rep_live; eauto.
Qed.
Lemma rep_no_garbage h s a : Rep h s -> nth a h None <> None -> ~ unheld s a.
Proof.
  intros R N U. pose proof (rep_swept _ _ R) as (_ & _ & _ & W). apply N. rewrite <- get_nth.
  pose proof (proj1 (W a) U) as A. rewrite (at_rep h) in A by apply R. destruct (get h a); [discriminate|auto].
Qed.
(** Nothing is there that nobody holds. *)
Theorem nothing_unheld_stays max cs : keeps_rules max cs start ->
  exists h s, outcome max cs h s /\ exact h s /\
    forall a, unheld s a -> nth a h None = None.
Proof.
  intro K. destruct (history max cs K) as (h & s & O & R). exists h, s. split; auto. split; [apply rep_exact; auto|].
  intros a U. destruct (nth a h None) eqn:G; auto. exfalso. eapply rep_no_garbage; eauto. congruence.
Qed.

(** ** Without circles, what is there is what the program can get at *)
Lemma finite_acc s : acyclic s -> forall n l a, NoDup l -> In a l -> (forall x, In x l -> x = a \/ clos_trans nat (refers s) a x) ->
  (forall x, In x l -> (x < length (cells s))%nat) -> (length (cells s) - length l <= n)%nat -> Acc (refers s) a.
Proof.
  intros AC. induction n as [|n IH]; intros l a ND Ia Hl Hn L; constructor; intros b E.
  - assert (~ In b l) as NB.
    { intro I. destruct (Hl b I) as [->|T]; [apply (AC a); constructor; auto|]. apply (AC a). eapply t_trans; [exact T|constructor; auto]. }
    exfalso. assert (length (b :: l) <= length (seq 0 (length (cells s))))%nat as Q.
    { apply NoDup_incl_length; [constructor; auto|]. intros x [<- | I]; apply in_seq.
      - pose proof (refers_lt _ _ _ E). lia.
      - specialize (Hn x I). lia. }
    rewrite seq_length in Q. cbn in Q. lia.
  - assert (~ In b l) as NB.
    { intro I. destruct (Hl b I) as [->|T]; [apply (AC a); constructor; auto|]. apply (AC a). eapply t_trans; [exact T|constructor; auto]. }
    apply (IH (b :: l)).
    + constructor; auto.
    + cbn; auto.
    + intros x [<- | I]; auto. right. destruct (Hl x I) as [->|T]; [constructor; auto|]. eapply t_trans; [constructor; exact E|exact T].
    + intros x [<- | I]; auto. eapply refers_lt; eauto.
    + cbn. lia.
Qed.
Lemma acyclic_wf s : acyclic s -> well_founded (refers s).
Proof.
  intros AC a. constructor. intros b E. apply (finite_acc s AC (length (cells s)) [b] b).
  - constructor; [tauto|constructor].
  - cbn; auto.
  - intros x [<- | []]. auto.
  - intros x [<- | []]. eapply refers_lt; eauto.
  - lia.
Qed.
Lemma acyclic_held s a : acyclic s -> ~ reachable s a -> unheld s a.
Proof.
  intro AC. pose proof (acyclic_wf s AC a) as W. induction W as [a _ IH]. intro N. constructor.
  - intro I. apply N, reach_own. left. auto.
  - intro I. apply N, reach_own. right. auto.
  - intros b E. apply IH; auto. intro A. apply N. apply reach_ref with b; auto.
Qed.
(** reachability is decided by going back along the references *)
Lemma refers_dec s b a : {refers s b a} + {~ refers s b a}.
Proof.
  unfold refers. destruct (at_ s b) as [x|] eqn:A.
  - destruct (in_dec Nat.eq_dec a (out x)) as [I|I]; [left; exists x; auto|right; intros (y & Y & J)]. injection Y as <-. auto.
  - right. intros (y & Y & _). discriminate.
Qed.
Lemma reachable_dec s a : acyclic s -> {reachable s a} + {~ reachable s a}.
Proof.
  intro AC. pose proof (acyclic_wf s AC a) as W. induction W as [a _ IH].
  destruct (in_dec Nat.eq_dec a (held s)) as [H|H]; [left; apply reach_own; left; auto|].
  destruct (in_dec Nat.eq_dec a (fresh s)) as [F|F]; [left; apply reach_own; right; auto|].
  assert (forall n, {exists b, (b < n)%nat /\ refers s b a /\ reachable s b} + {forall b, (b < n)%nat -> refers s b a -> ~ reachable s b}) as D.
  { induction n as [|n [D|D]].
    - right. intros b L. lia.
    - left. destruct D as (b & L & Q). exists b. split; auto.
    - destruct (refers_dec s n a) as [E|E].
      + destruct (IH n E) as [A|A]; [left; exists n; auto|]. right. intros b L Q. destruct (Nat.eq_dec b n) as [->|X]; auto. apply D; auto. lia.
      + right. intros b L Q. destruct (Nat.eq_dec b n) as [->|X]; [tauto|]. apply D; auto. lia. }
  destruct (D (length (cells s))) as [Q|Q].
  - left. destruct Q as (b & _ & E & A). apply reach_ref with b; auto.
  - right. intro A. inversion A as [x [O|O]|b x A' E]; subst; auto. apply (Q b); auto. eapply refers_lt; eauto.
Qed.
(** Without circles the heap holds exactly what the program can get at: no leak, no early free. *)
Theorem heap_is_what_is_reachable max cs : keeps_rules max cs start ->
  exists h s, outcome max cs h s /\ exact h s /\
    (acyclic s -> forall a, reachable s a <-> exists c, nth a h None = Some c).
Proof.
  intro K. destruct (history max cs K) as (h & s & O & R). exists h, s. split; auto. split; [apply rep_exact; auto|].
  intros AC a. split.
  - intro A. rewrite <- get_nth. eapply rep_live; eauto.
  - intros (c & G). destruct (reachable_dec s a AC) as [A|A]; auto. exfalso.
    apply (rep_no_garbage h s a R); [congruence|]. apply acyclic_held; auto.
Qed.
(** When the program has let go of everything, nothing is left. *)
Theorem all_released_all_freed max cs : keeps_rules max cs start ->
  exists h s, outcome max cs h s /\ exact h s /\
    (acyclic s -> held s = [] -> fresh s = [] -> forall a, nth a h None = None).
Proof.
  intro K. destruct (history max cs K) as (h & s & O & R). exists h, s. split; auto. split; [apply rep_exact; auto|].
  intros AC H F a. destruct (nth a h None) as [c|] eqn:G; auto. exfalso.
  apply (rep_no_garbage h s a R); [congruence|]. apply acyclic_held; auto. intro A. clear - A H F.
  induction A as [a [O|O]|]; auto; [rewrite H in O|rewrite F in O]; destruct O.
Qed.
(** The statements hold at every point of a history. *)
Theorem rules_kept_before max cs ds s : keeps_rules max (cs ++ ds) s -> keeps_rules max cs s.
Proof.
  revert s. induction cs as [|c cs IH]; intros s K; cbn in *; auto. destruct K as [A K]. split; auto.
  intros r s' S. apply IH. apply (K r s' S).
Qed.

(** ** Programs that keep the rules *)
Lemma swept_same s s' : swept s s' -> (forall a, ~ reachable s a -> at_ s a = None) -> s' = s.
Proof.
  intros (L & H & F & W) A. apply state_eq; auto. apply nth_ext with (d := None) (d' := None); auto.
  intros a _. change (at_ s' a = at_ s a). destruct (W a) as [W1 W2].
  destruct (at_ s a) as [b|] eqn:E.
  - apply W2. intro U. assert (~ ~ reachable s a) as Q by (intro N; specialize (A a N); congruence).
    apply Q. intro RR. eapply reachable_not_unheld; eauto.
  - destruct (at_ s' a) as [b|] eqn:E'; auto. exfalso.
    assert (~ unheld s a) as NU by (intro U; specialize (W1 U); congruence). specialize (W2 NU). congruence.
Qed.
(** an object in a value, with a property; then everything is let go of *)
Definition demo : list call :=
  [ObjNew; ValueNew1; MakeObject 1 0; ValueNew1; Insert 0 7 2; Decr 2; Dup 1; IsShared 0; Decr 1; Decr 3].
Definition circle : list call := [ObjNew; ValueNew1; MakeObject 1 0; Insert 0 7 1; Decr 1].

Lemma swept_all s s' : swept s s' -> Forall (reachable s) (seq 0 (length (cells s))) -> s' = s.
Proof.
  intros W F. apply swept_same; auto. intros a N. unfold at_. apply nth_overflow. destruct (Nat.lt_ge_cases a (length (cells s))); auto.
  exfalso. apply N. rewrite Forall_forall in F. apply F. apply in_seq. lia.
Qed.
(* reachable by way of [w] *)
Ltac via w := eapply reach_ref with w; [|eexists; split; [reflexivity|cbn; tauto]].
Ltac own := apply reach_own; unfold owns; cbn; tauto.
Ltac settle_step S := apply swept_all in S; [subst|cbn [cells length seq settle assign hold add get_fresh start app firstn skipn release]; repeat (apply Forall_cons; [|]); try apply Forall_nil; try own].
Example circle_keeps_rules : keeps_rules 1000 circle start.
Proof.
  unfold circle. cbn [keeps_rules].
  split; [exact I|]. intros r s' (s1 & [_ ->] & SW). settle_step SW. cbn.
  split; [exact I|]. intros r' s' (s1 & [_ ->] & SW). settle_step SW. cbn.
  split.
  { split; [eexists; reflexivity|]. split; [right; apply kept_held; cbn; auto|]. split; [do 4 eexists; reflexivity|].
    split; [unfold room; cbn; unfold INT_MAX; lia|]. left. left. cbn; auto. }
  intros r2 s' (s1 & [_ ->] & SW). settle_step SW. 2: via 1%nat; own. cbn.
  split.
  { split; [do 4 eexists; reflexivity|].
    split; [right; eapply kept_ref with 1%nat; [cbn; lia|right; apply kept_held; cbn; auto|eexists; split; [reflexivity|cbn; auto]]|].
    split; [right; apply kept_held; cbn; auto|]. unfold room. cbn. unfold INT_MAX. lia. }
  intros r3 s' (s1 & (_ & ps & es & pr & w & ps' & O & WP & ->) & SW).
  injection O as <- <- <- <-.
  assert (In 1%nat (held s')) as H.
  { destruct SW as (_ & H & _). rewrite H. cbn. auto. }
  split; auto.
Qed.
(** A circle keeps itself alive: such cells are never freed (hence [acyclic] above). *)
Theorem circles_leak : keeps_rules 1000 circle start /\
  exists h rs, run 1000 circle [] = Ok (h, rs) /\ nth 0 h None <> None /\ nth 1 h None <> None.
Proof.
  split; [exact circle_keeps_rules|]. eexists _, _. split; [vm_compute; reflexivity|]. split; discriminate.
Qed.
Lemma one_property k v ps : with_property k v [] ps -> ps = [(k, v)].
Proof.
  intros [L N]. destruct ps as [|[j w] [|[i u] ps]].
  - specialize (L k). rewrite Z.eqb_refl in L. discriminate.
  - pose proof (L j) as Lj. unfold lookup in Lj. cbn in Lj. rewrite Z.eqb_refl in Lj. destruct (j =? k) eqn:E; [|discriminate].
    apply Z.eqb_eq in E. congruence.
  - exfalso. pose proof (L j) as Lj. pose proof (L i) as Li. unfold lookup in Lj, Li. cbn in Lj, Li. rewrite Z.eqb_refl in Lj.
    destruct (j =? k) eqn:E; [|discriminate]. apply Z.eqb_eq in E. subst j.
    destruct (k =? i) eqn:E2.
    + apply Z.eqb_eq in E2. subst. cbn in N. inversion N as [|? ? Q]; subst. apply Q. cbn; auto.
    + rewrite (Z.eqb_sym i k), E2 in Li. rewrite Z.eqb_refl in Li. discriminate.
Qed.
(** The hypothesis of the theorems is met by a program that makes an object with a property,
    duplicates the value that refers to it, and lets go of everything. *)
Example demo_keeps_rules : keeps_rules 1000 demo start.
Proof.
  unfold demo. cbn [keeps_rules].
  split; [exact I|]. intros r s' (s1 & [_ ->] & SW). settle_step SW. cbn.
  split; [exact I|]. intros r' s' (s1 & [_ ->] & SW). settle_step SW. cbn.
  split.
  { split; [eexists; reflexivity|]. split; [right; apply kept_held; cbn; auto|]. split; [do 4 eexists; reflexivity|].
    split; [unfold room; cbn; unfold INT_MAX; lia|]. left. left. cbn; auto. }
  intros r2 s' (s1 & [_ ->] & SW). settle_step SW. 2: via 1%nat; own. cbn.
  split; [exact I|]. intros r3 s' (s1 & [_ ->] & SW). settle_step SW. 2: via 1%nat; own. cbn.
  split.
  { split; [do 4 eexists; reflexivity|].
    split; [right; eapply kept_ref with 1%nat; [cbn; lia|right; apply kept_held; cbn; auto|eexists; split; [reflexivity|cbn; auto]]|].
    split; [right; apply kept_held; cbn; auto|]. unfold room. cbn. unfold INT_MAX. lia. }
  intros r4 s' (s1 & (_ & ps & es & pr & w & ps' & O & WP & ->) & SW).
  injection O as <- <- <- <-. apply one_property in WP. subst ps'. settle_step SW. 2: via 1%nat; own. cbn.
  split; [auto|]. intros r5 s' (s1 & [_ ->] & SW). settle_step SW. 2: via 1%nat; own. 2: via 0%nat; via 1%nat; own. cbn.
  split.
  { split; [own|]. split; [cbn; tauto|]. eexists. split; [reflexivity|]. intros a [<- | []]. unfold room. cbn. unfold INT_MAX. lia. }
  intros r6 s' (s1 & (_ & p & V & ->) & SW). injection V as <-. settle_step SW. 2: via 1%nat; own. 2: via 0%nat; via 1%nat; own. cbn.
  split; [via 1%nat; own|].
  intros r7 s' (s1 & [_ ->] & SW). settle_step SW. 2: via 1%nat; own. 2: via 0%nat; via 1%nat; own. cbn.
  split; [auto|]. intros r8 s' (s1 & [_ ->] & SW). destruct SW as (_ & H & _). rewrite H. cbn. split; auto.
Qed.
Example demo_runs : run 1000 demo [] = Ok ([None; None; None; None],
  [AAddr 0; AAddr 1; ANone; AAddr 2; ANone; ANone; AAddr 3; ABool true; ANone; ANone]).
Proof. reflexivity. Qed.

(** ** Where the counts go wrong: why the rules are needed *)
(** A copy of a value that was never held does not count as a holder of its object (jsiValue.c:283):
    when the copy is let go of, the object is freed under the value. *)
Theorem copy_of_unheld_value_refuted :
  run 1000 [ValueNew; ObjNew; MakeObject 0 1; ValueNew1; Copy 2 0; Decr 2; MakePlain 0 5] [] = Fault.
Proof. reflexivity. Qed.
(** Setting an element lets go of the old one first (jsiObj.c:413-416): a new element that is
    only kept by the old one is gone by the time it is counted. *)
Theorem set_element_kept_by_old_refuted :
  run 1000 [ObjNew; ValueNew1; MakeObject 1 0; ObjNew; ValueNew1; MakeObject 3 2; ArrayAdd 0 3; Decr 3;
            ValueNew1; ArrayAdd 2 4; Decr 4; ArraySet 0 4 0] [] = Fault.
Proof. reflexivity. Qed.
(** Moving the referent of a variable into it touches the referent after it was freed (jsiValue.c:284-289). *)
Theorem move_own_referent_refuted :
  run 1000 [ObjNew; ValueNew1; MakeObject 1 0; ValueNew1; MakeVariable 2 1; Decr 1; Move 2 1] [] = Fault.
Proof. reflexivity. Qed.
(** Object.setPrototypeOf never lets go of the old prototype (jsiProto.c:577-579): set twice, the
    first one stays for ever, although everything was let go of and nothing is circular. *)
Theorem set_prototype_twice_leaks_refuted :
  exists h rs, run 1000 [ObjNew; ValueNew1; MakeObject 1 0; ObjNew; ValueNew1; MakeObject 3 2; ValueNew1; Insert 2 7 4; Decr 4;
    SetPrototypeOf 1 3; SetPrototypeOf 1 3; Decr 1; Decr 3] [] = Ok (h, rs) /\
  nth 5 h None = Some (mkC 1 (BValue (PObject 2))) /\ nth 2 h None <> None.
Proof. eexists _, _. split; [vm_compute; reflexivity|]. split; [reflexivity|discriminate]. Qed.
(** ... and a prototype taken over from an empty object is not counted, but let go of
    (clearProto stays set, jsiProto.c:581): it is freed while another object still uses it. *)
Theorem set_prototype_of_empty_refuted :
  run 1000 [ObjNew; ValueNew1; MakeObject 1 0; ObjNew; ValueNew1; MakeObject 3 2; ValueNew1; Insert 2 7 4; Decr 4;
    ObjNew; ValueNew1; MakeObject 6 5; SetPrototypeOf 6 3;
    SetPrototypeOf 1 3; SetPrototypeOf 1 6; Decr 1; Decr 6; Decr 3] [] = Fault.
Proof. reflexivity. Qed.

Print Assumptions reference_counts_are_exact. Print Assumptions nothing_in_use_is_freed. Print Assumptions nothing_unheld_stays.
Print Assumptions heap_is_what_is_reachable. Print Assumptions all_released_all_freed. Print Assumptions rules_kept_before.
Print Assumptions circles_leak. Print Assumptions copy_of_unheld_value_refuted. Print Assumptions set_element_kept_by_old_refuted.
Print Assumptions move_own_referent_refuted. Print Assumptions set_prototype_twice_leaks_refuted. Print Assumptions set_prototype_of_empty_refuted.
