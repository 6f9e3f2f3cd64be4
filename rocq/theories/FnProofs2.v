(** * The compiled program does what the specification says *)
Require Import ZArith List Bool Lia.
Import ListNotations.
Require Import Verif.FnModel Verif.FnSpec Verif.FnProofs.
Local Open Scope nat_scope.

Section Sim.
Context {PS : psys}.
Notation V := (value (prim PS)).
Notation vundef := (VPrim (undef PS)).
Notation mem := (@mem PS).
Notation code := (list (@instr PS)).

(** ** More fuel does not change an outcome *)
Notation rec_t := (code -> list nat -> nat -> V -> nat -> Z -> list (@slot PS) -> (nat -> V) -> mem -> @outcome PS).
Definition more (r1 r2 : rec_t) : Prop := forall C sc cur t d i s th m,
  r1 C sc cur t d i s th m <> NoFuel -> r2 C sc cur t d i s th m = r1 C sc cur t d i s th m.

Lemma step_mono r1 r2 : more r1 r2 -> more (step r1) (step r2).
Proof.
  intros H C sc cur t d i s th m. unfold step.
  destruct (fetch C i) as [[]|]; try (intros; reflexivity);
    repeat match goal with
    | |- context [match ?x with _ => _ end] =>
        match x with
        | context [match _ with _ => _ end] => fail 1
        | r1 _ _ _ _ _ _ _ _ _ => fail 1
        | r2 _ _ _ _ _ _ _ _ _ => fail 1
        | _ => destruct x eqn:?
        end
    end; try (intros; reflexivity); try apply H.
  - intros Hn; pose proof (H (comp_s (body f)) scope cur0 this (S d) 0%Z s th0 m0) as H1;
    destruct (r1 (comp_s (body f)) scope cur0 this (S d) 0%Z s th0 m0);
      [rewrite H1 by discriminate; apply H, Hn|rewrite H1 by discriminate; reflexivity|
       now contradiction Hn|rewrite H1 by discriminate; reflexivity].
  - intros Hn; pose proof (H (comp_s (body f)) scope cur0 this (S d) 0%Z s th0 m0) as H1;
    destruct (r1 (comp_s (body f)) scope cur0 this (S d) 0%Z s th0 m0);
      [rewrite H1 by discriminate; apply H, Hn|rewrite H1 by discriminate; reflexivity|
       now contradiction Hn|rewrite H1 by discriminate; reflexivity].
Qed.
Lemma run_enough n : more (run n) (run (S n)).
Proof.
  induction n as [|n IH].
  - intros C sc cur t d i s th m Hn. now contradiction Hn.
  - intros C sc cur t d i s th m Hn. exact (step_mono _ _ IH _ _ _ _ _ _ _ _ _ Hn).
Qed.
Lemma run_mono n k : more (run n) (run (k + n)).
Proof.
  induction k as [|k IH]; intros C sc cur t d i s th m Hn; [reflexivity|].
  cbn [Nat.add]. rewrite (run_enough (k + n)); rewrite IH by assumption; auto.
Qed.

(** ** Configurations *)
Notation slot := (@slot PS).
Notation expr := (@expr PS).
Notation exprs := (@exprs PS).
Notation items := (@items PS).
Notation stmt := (@stmt PS).
Notation fundef := (@fundef PS).
Notation operand := (@operand PS).

Record frame := mkframe { fcode : code; fscope : list nat; fcur : nat; fthis : V; fdep : nat }.
Record cfg := cf { fr : frame; ix : Z; stk : list slot; rcvs : nat -> V; mm : mem }.
Definition rn (n : nat) (g : cfg) : @outcome PS :=
  run n (fcode (fr g)) (fscope (fr g)) (fcur (fr g)) (fthis (fr g)) (fdep (fr g)) (ix g) (stk g) (rcvs g) (mm g).

Lemma rn_mono n k g : rn n g <> NoFuel -> rn (k + n) g = rn n g.
Proof. apply run_mono. Qed.
Lemma rn_det n k g : rn n g <> NoFuel -> rn k g <> NoFuel -> rn n g = rn k g.
Proof.
  intros Hn Hk. destruct (Nat.le_ge_cases n k) as [H|H].
  - replace k with ((k - n) + n) by lia. symmetry. now apply rn_mono.
  - replace n with ((n - k) + k) by lia. now apply rn_mono.
Qed.

(* from [a] the run comes to [b], after at least [p] instructions *)
Definition via (p : nat) (a b : cfg) : Prop :=
  (forall j, rn (p + j) a <> NoFuel -> rn j b = rn (p + j) a) /\
  (exists k, forall j, rn j b <> NoFuel -> rn (k + j) a = rn j b).
Definition ends (a : cfg) (o : @outcome PS) : Prop := exists k, rn k a = o.
Definition starves (n : nat) (a : cfg) : Prop := forall j, j <= n -> rn j a = NoFuel.

Lemma via_refl a : via 0 a a.
Proof. split; [reflexivity|]. exists 0. reflexivity. Qed.
Lemma via_one a b : (forall j, rn (S j) a = rn j b) -> via 1 a b.
Proof.
  intros H. split.
  - intros j _. symmetry. apply H.
  - exists 1. intros j _. apply H.
Qed.
Lemma via_trans p q a b c : via p a b -> via q b c -> via (p + q) a c.
Proof.
  intros [H1 [k1 K1]] [H2 [k2 K2]]. split.
  - intros j Hj. rewrite <- Nat.add_assoc in Hj |- *.
    pose proof (H1 _ Hj) as E1. rewrite <- E1. apply H2. now rewrite E1.
  - exists (k1 + k2). intros j Hj. rewrite <- Nat.add_assoc.
    rewrite K1; rewrite K2 by assumption; auto.
Qed.
Lemma via_weak p a b : via p a b -> via 0 a b.
Proof.
  intros [H K]. split; [|exact K]. intros j Hj. cbn [Nat.add] in *.
  pose proof (rn_mono j p a Hj) as E. rewrite <- E. apply H. rewrite E. exact Hj.
Qed.
Lemma via0_trans a b c : via 0 a b -> via 0 b c -> via 0 a c.
Proof. apply (via_trans 0 0). Qed.
Lemma via_ends p a b o : via p a b -> o <> NoFuel -> ends b o -> ends a o.
Proof. intros [_ [k K]] Ho [j Hj]. exists (k + j). rewrite K; congruence. Qed.
Lemma via_starves p a b n : via p a b -> starves n b -> starves (p + n) a.
Proof.
  intros [H _] Hs j Hj.
  destruct (rn j a) eqn:E; try reflexivity; exfalso;
    (assert (Hn : rn j a <> NoFuel) by congruence;
     assert (Hn2 : rn (p + (j - p)) a <> NoFuel)
       by (replace (p + (j - p)) with ((p - j) + j) by lia; rewrite rn_mono by assumption; assumption);
     pose proof (H _ Hn2) as H1; rewrite Hs in H1 by lia; congruence).
Qed.
Lemma starves_le n k a : starves n a -> k <= n -> starves k a.
Proof. intros H Hk j Hj. apply H. lia. Qed.

(** ** What a result of the specification says about a configuration *)
Notation res := (@res PS).
Definition post {A} (n : nat) (g : cfg) (r : res A) (K : cfg -> A -> mem -> Prop) : Prop :=
  match r with
  | Ok a m => K g a m
  | Err m => ends g (Fail m)
  | Out => starves n g
  | Unk => True
  end.
Definition closed {A} (K : cfg -> A -> mem -> Prop) : Prop :=
  forall g g' a m, via 0 g g' -> K g' a m -> K g a m.

Lemma post_via {A} n g g' (r : res A) K : closed K -> via 0 g g' -> post n g' r K -> post n g r K.
Proof.
  intros HK Hv. destruct r as [a m|m| |]; cbn; auto.
  - now apply HK.
  - apply via_ends with (p := 0); [assumption|discriminate].
  - apply (via_starves 0). assumption.
Qed.
Lemma post_bind {A B} n g (r : res A) (k : A -> mem -> res B) K K' :
  post n g r K ->
  (forall a m, K g a m -> post n g (k a m) K') -> post n g (FnSpec.bind r k) K'.
Proof. intros Hr Hk. destruct r as [a m|m| |]; cbn in *; auto. Qed.

Definition clean (th : nat -> V) (n : nat) : Prop := forall j, n <= j -> exists p, th j = VPrim p.
Definition keeps (th th' : nat -> V) (n : nat) : Prop := (forall j, j < n -> th' j = th j) /\ clean th' n.
Lemma keeps_refl th n : clean th n -> keeps th th n.
Proof. now split. Qed.
Lemma keeps_trans a b c n : keeps a b n -> keeps b c n -> keeps a c n.
Proof. intros [H1 _] [H2 H3]. split; [|assumption]. intros j Hj. rewrite H2, H1; auto. Qed.
Lemma keeps_le a b n k : keeps a b k -> n <= k -> (forall j, n <= j < k -> exists p, a j = VPrim p) -> keeps a b n.
Proof.
  intros [H1 H2] Hn Hc. split; [intros j Hj; apply H1; lia|].
  intros j Hj. destruct (Nat.lt_ge_cases j k); [|now apply H2].
  rewrite H1 by assumption. apply Hc. lia.
Qed.
Lemma clean_le th n k : clean th n -> n <= k -> clean th k.
Proof. intros H Hk j Hj. apply H. lia. Qed.

(* control reaches [i'] with the stack [f a], the receivers below [n0] unchanged *)
Definition lands {A} (F : frame) (i' : Z) (f : A -> list slot) (th0 : nat -> V) (n0 : nat) (g : cfg) (a : A) (m : mem) : Prop :=
  mem_ok m /\ exists th', keeps th0 th' n0 /\ via 0 g (cf F i' (f a) th' m).
Lemma lands_closed {A} F i' (f : A -> list slot) th0 n0 : closed (lands F i' f th0 n0).
Proof.
  intros g g' a m Hv [Hm (th' & Hk & Hg)]. split; [assumption|]. exists th'. split; [assumption|].
  now apply via0_trans with g'.
Qed.
Definition slot_of (o : operand) : slot := match o with OVal v => SVal v | ORef c => SRef c end.
Lemma deref_slot (m : mem) o : deref m (slot_of o) = val m o.
Proof. destruct o; cbn; [reflexivity|]. now rewrite readc_cell. Qed.

(** ** Code segments *)
Definition seg (C : code) (i : Z) (c : code) : Prop :=
  exists pre post, C = pre ++ c ++ post /\ i = zlen pre.
Lemma zlen_app {A} (a b : list A) : zlen (a ++ b) = (zlen a + zlen b)%Z.
Proof. unfold zlen. rewrite app_length. lia. Qed.
Lemma zlen_cons {A} (x : A) (b : list A) : zlen (x :: b) = (1 + zlen b)%Z.
Proof. unfold zlen. cbn [length]. lia. Qed.
Lemma zlen_nil {A} : zlen (@nil A) = 0%Z.
Proof. reflexivity. Qed.
Lemma seg_app C i a b : seg C i (a ++ b) -> seg C i a /\ seg C (i + zlen a)%Z b.
Proof.
  intros (pre & po & -> & ->). split.
  - exists pre, (b ++ po). now rewrite <- app_assoc.
  - exists (pre ++ a), po. rewrite zlen_app. split; [|reflexivity]. now rewrite <- !app_assoc.
Qed.
Lemma seg_cons C i x b : seg C i (x :: b) -> fetch C i = Some x /\ seg C (i + 1)%Z b.
Proof.
  intros (pre & po & -> & ->). split.
  - unfold fetch. destruct (Z.ltb_spec (zlen pre) 0) as [H|H]; [unfold zlen in H; lia|].
    unfold zlen. rewrite Nat2Z.id. rewrite nth_error_app2, Nat.sub_diag by lia. reflexivity.
  - exists (pre ++ [x]), po. rewrite zlen_app. split; [|reflexivity]. now rewrite <- !app_assoc.
Qed.
Lemma seg_self c : seg c 0%Z c.
Proof. exists [], []. now rewrite app_nil_r. Qed.
Lemma fetch_end (C : code) : fetch C (zlen C) = None.
Proof.
  unfold fetch, zlen. destruct (Z.ltb_spec (Z.of_nat (length C)) 0); [lia|].
  rewrite Nat2Z.id. apply nth_error_None. lia.
Qed.
End Sim.
