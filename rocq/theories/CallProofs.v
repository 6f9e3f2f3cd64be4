(** * Typed calls: lemmas *)
From Coq Require Import ZArith List Bool Lia.
Import ListNotations.
Require Import Verif.CallModel Verif.CallSpec.
Local Open Scope Z_scope.

Lemma has_bit_lor a b t : has_bit (Z.lor a b) t = has_bit a t || has_bit b t.
Proof.
  unfold has_bit. rewrite Z.land_lor_distr_l. destruct (Z.eqb_spec (Z.land a (bit t)) 0) as [E|E], (Z.eqb_spec (Z.land b (bit t)) 0) as [F|F]; cbn [negb orb].
  - rewrite E, F. reflexivity.
  - destruct (Z.eqb_spec (Z.lor (Z.land a (bit t)) (Z.land b (bit t))) 0) as [G|G]; [|reflexivity]. apply Z.lor_eq_0_iff in G. tauto.
  - destruct (Z.eqb_spec (Z.lor (Z.land a (bit t)) (Z.land b (bit t))) 0) as [G|G]; [|reflexivity]. apply Z.lor_eq_0_iff in G. tauto.
  - destruct (Z.eqb_spec (Z.lor (Z.land a (bit t)) (Z.land b (bit t))) 0) as [G|G]; [|reflexivity]. apply Z.lor_eq_0_iff in G. tauto.
Qed.
Definition tname_eqb (a b : tname) : bool := bit a =? bit b.
Lemma tname_eqb_eq a b : tname_eqb a b = true <-> a = b.
Proof. unfold tname_eqb. destruct a, b; cbn; split; congruence. Qed.
Lemma has_bit_bit u t : has_bit (bit u) t = tname_eqb t u.
Proof. destruct u, t; reflexivity. Qed.
Lemma mask_acc l : forall m, fold_left (fun m t => Z.lor m (bit t)) l m = Z.lor m (mask l).
Proof.
  unfold mask. induction l as [|t l IH]; intros m; cbn [fold_left]; [now rewrite Z.lor_0_r|]. rewrite IH, (IH (Z.lor 0 (bit t))), Z.lor_0_l. now rewrite Z.lor_assoc.
Qed.
Lemma mask_cons t l : mask (t :: l) = Z.lor (bit t) (mask l).
Proof. unfold mask at 1. cbn [fold_left]. rewrite mask_acc. now rewrite Z.lor_0_l. Qed.
Lemma mask_app l m : mask (l ++ m) = Z.lor (mask l) (mask m).
Proof. induction l as [|t l IH]; cbn [app]; [now rewrite Z.lor_0_l|]. rewrite !mask_cons, IH. now rewrite Z.lor_assoc. Qed.
Lemma has_bit_mask l t : has_bit (mask l) t = true <-> In t l.
Proof.
  induction l as [|u l IH]; [cbn; split; [discriminate|tauto]|]. rewrite mask_cons, has_bit_lor, orb_true_iff, IH, has_bit_bit, tname_eqb_eq. cbn. intuition.
Qed.
Lemma bit_pos t : 0 < bit t.
Proof. destruct t; reflexivity. Qed.
Lemma mask_nonneg l : 0 <= mask l.
Proof. induction l as [|t l IH]; [reflexivity|]. rewrite mask_cons. apply Z.lor_nonneg. pose proof (bit_pos t). lia. Qed.
Lemma mask_zero l : mask l <= 0 <-> l = [].
Proof.
  split; [|intros ->; reflexivity]. destruct l as [|t l]; [reflexivity|]. intros H. pose proof (mask_nonneg (t :: l)). assert (Z0 : mask (t :: l) = 0) by lia.
  rewrite mask_cons in Z0. apply Z.lor_eq_0_iff in Z0 as [Z0 _]. pose proof (bit_pos t). lia.
Qed.
Lemma ptype_mask p : ptype p = mask (types p).
Proof. unfold ptype, types. rewrite mask_app. f_equal. destruct (pd p) as [[]|]; reflexivity. Qed.
Lemma is_kind_of t v : is_kind t v = true <-> of_type t v.
Proof.
  unfold is_kind, of_type. split.
  - destruct t, (vk v); cbn; intros H; try discriminate; intuition.
  - cbn. intros H. repeat (destruct H as [H|H]; [injection H as <- <-; reflexivity|]). destruct H.
Qed.
Lemma of_type_listed t v : of_type t v -> In t [Tundefined; Tnumber; Tstring; Tboolean; Tarray; Tfunction; Tregexp; Tuserobj; Titerobj; Tobject; Tnull].
Proof. unfold of_type. cbn. intros H. repeat (destruct H as [H|H]; [injection H as <- _; tauto|]). destruct H. Qed.
Lemma kinds_match l v : existsb (fun t => has_bit (mask l) t && is_kind t v) [Tundefined; Tnumber; Tstring; Tboolean; Tarray; Tfunction; Tregexp; Tuserobj; Titerobj; Tobject; Tnull] = true <->
  exists t, In t l /\ of_type t v.
Proof.
  rewrite existsb_exists. split; intros (t & A & B).
  - apply andb_prop in B as [B C]. apply has_bit_mask in B. apply is_kind_of in C. eauto.
  - exists t. split; [eapply of_type_listed; exact B|]. apply andb_true_intro. split; [now apply has_bit_mask|now apply is_kind_of].
Qed.
Lemma undef_vk v : is_undef v = true <-> vk v = KUndef.
Proof. unfold is_undef. destruct (vk v); split; congruence. Qed.

(** the check of an argument *)
Lemma check_arg c l v i : no_check c = false -> no_error c = false -> 0 < i ->
  let (c', ok) := arg_type_check c (mask l) v i false in (ok = true <-> admits (noundef c) l v) /\ (ok = true -> c' = c).
Proof.
  intros N E I. unfold arg_type_check, admits. rewrite N. destruct (Z.ltb_spec 0 i); [|lia]. destruct (Z.eqb_spec i 0); [lia|]. cbn [andb negb]. rewrite !andb_true_r.
  pose proof (has_bit_mask l Tundefined) as BU. pose proof (has_bit_mask l Tany) as BA. pose proof (kinds_match l v) as KM. set (km := existsb _ _) in *. clearbody km.
  pose proof (mask_zero l) as MZ. pose proof (undef_vk v) as UV.
  assert (MF : mismatch c = (type_mismatch c, false)) by (unfold mismatch; now rewrite E).
  destruct (is_undef v) eqn:U; cbn [andb].
  - assert (UU : of_type Tundefined v) by (unfold of_type; rewrite (proj1 UV eq_refl); cbn; tauto). destruct (noundef c); cbn [negb andb].
    + destruct (Z.leb_spec (mask l) 0) as [Z0|Z0]; [apply MZ in Z0; split; [split; [|reflexivity]; intros _; split; [discriminate|auto]|auto]|].
      destruct (has_bit (mask l) Tany); [split; [split; [|reflexivity]; intros _; split; [discriminate|right; left; tauto]|auto]|].
      destruct km; [split; [split; [|reflexivity]; intros _; split; [discriminate|right; right; tauto]|auto]|]. rewrite MF. split; [|discriminate].
      split; [discriminate|]. intros [_ [->|[A|A]]]; [cbn in Z0; lia|apply BA in A; discriminate|apply KM in A; discriminate].
    + destruct (has_bit (mask l) Tundefined); cbn [orb negb].
      * assert (IU : In Tundefined l) by tauto. destruct (Z.leb_spec (mask l) 0) as [Z0|Z0]; [apply MZ in Z0; subst; destruct IU|].
        destruct (has_bit (mask l) Tany); [split; [split; [|reflexivity]; intros _; split; [tauto|right; left; tauto]|auto]|].
        destruct km; [split; [split; [|reflexivity]; intros _; split; [tauto|right; right; tauto]|auto]|]. rewrite MF. split; [|discriminate].
        exfalso. assert (false = true) by (apply KM; eauto). discriminate.
      * destruct (has_bit (mask l) Tany); cbn [negb].
        -- assert (IA : In Tany l) by tauto. destruct (Z.leb_spec (mask l) 0) as [Z0|Z0]; split; try split; auto.
        -- rewrite MF. split; [|discriminate]. split; [discriminate|]. intros [A _]. destruct (A (proj1 UV eq_refl) eq_refl) as [B|B]; [apply BU in B|apply BA in B]; discriminate.
  - assert (NU : vk v <> KUndef) by (intros X; apply UV in X; discriminate). rewrite ?andb_false_r.
    destruct (Z.leb_spec (mask l) 0) as [Z0|Z0]; [apply MZ in Z0; split; [split; [|reflexivity]; intros _; split; [tauto|auto]|auto]|].
    destruct (has_bit (mask l) Tany); [split; [split; [|reflexivity]; intros _; split; [tauto|right; left; tauto]|auto]|].
    destruct km; [split; [split; [|reflexivity]; intros _; split; [tauto|right; right; tauto]|auto]|]. rewrite MF. split; [|discriminate].
    split; [discriminate|]. intros [_ [->|[A|A]]]; [cbn in Z0; lia|apply BA in A; discriminate|apply KM in A; discriminate].
Qed.
(** a default is always accepted *)
Lemma check_default c l d i : 0 < i -> In (default_name d) l -> arg_type_check c (mask l) (dvalue d) i true = (c, true).
Proof.
  intros I H. unfold arg_type_check. destruct (no_check c); [reflexivity|]. destruct (Z.eqb_spec i 0); [lia|]. cbn [andb negb]. rewrite !andb_false_r. cbn [andb].
  destruct (Z.leb_spec (mask l) 0) as [Z0|Z0]; [reflexivity|]. destruct (has_bit (mask l) Tany); [reflexivity|].
  destruct d; cbn [default_name dvalue] in *.
  2: { apply has_bit_mask in H. rewrite H. reflexivity. }
  all: match goal with |- context [existsb ?f ?x] => assert (K : existsb f x = true) end.
  all: try (apply (kinds_match l); eexists; split; [exact H|cbn; tauto]).
  all: rewrite K; destruct (_ && _); reflexivity.
Qed.
Lemma check_return c l v : no_check c = false -> no_error c = false -> mask l <> 0 ->
  let (c', ok) := arg_type_check c (mask l) v 0 false in (ok = true <-> may_return l v).
Proof.
  intros N E M. unfold arg_type_check, may_return. rewrite N. cbn [Z.ltb Z.compare Z.eqb andb negb]. rewrite !andb_false_r. cbn [andb].
  pose proof (has_bit_mask l Tvoid) as BV. pose proof (has_bit_mask l Tany) as BA. pose proof (kinds_match l v) as KM. set (km := existsb _ _) in *. clearbody km.
  assert (MF : mismatch c = (type_mismatch c, false)) by (unfold mismatch; now rewrite E).
  destruct (Z.leb_spec (mask l) 0) as [Z0|Z0]; [pose proof (mask_nonneg l); lia|].
  assert (NE : l <> []) by (intros ->; now apply M).
  destruct (has_bit (mask l) Tany); [tauto|]. assert (NA : ~ In Tany l) by (rewrite <- BA; discriminate). destruct (is_undef v).
  - destruct (has_bit (mask l) Tvoid); [tauto|]. rewrite MF. rewrite <- BV. split; [discriminate|]. intros [?|[?|?]]; tauto.
  - destruct km; [tauto|]. rewrite MF. rewrite <- KM. split; [discriminate|]. intros [?|[?|?]]; tauto.
Qed.

(** the parameters *)
Lemma get_app h new c : (c < length h)%nat -> get (h ++ new) c = get h c.
Proof. intros H. unfold get. now rewrite app_nth1. Qed.
Lemma share_cons c rc i h p ps args : share c rc i h (p :: ps) args =
  (let '(c1, rc1) := match args, pd p with
                     | a :: _, _ => if rc then arg_type_check c (ptype p) (get h a) (i + 1) false else (c, rc)
                     | [], Some d => if rc then arg_type_check c (ptype p) (dvalue d) (i + 1) true else (c, rc)
                     | [], None => (c, rc)
                     end in
   let (h1, cell) := match args, pd p with
                     | a :: _, _ => (h, a)
                     | [], Some d => alloc h (dvalue d)
                     | [], None => alloc h undefined
                     end in
   let '(c2, rc2, h2, cells) := share c1 rc1 (i + 1) h1 ps (tl args) in (c2, rc2, h2, cell :: cells)).
Proof. reflexivity. Qed.
Lemma mismatch_keeps c : no_check (type_mismatch c) = no_check c /\ no_error (type_mismatch c) = no_error c.
Proof. unfold type_mismatch. destruct (_ <=? _); [auto|]. destruct (_ <=? _); auto. Qed.
Lemma check_keeps c t v i d : let (c', _) := arg_type_check c t v i d in no_check c' = no_check c /\ no_error c' = no_error c.
Proof.
  unfold arg_type_check, mismatch. pose proof (mismatch_keeps c). destruct (no_check c) eqn:N; [auto|].
  repeat match goal with |- context [if ?b then _ else _] => destruct b end; rewrite ?N; auto.
Qed.
Lemma share_spec ps : forall c rc i (h : heap) args, no_check c = false -> no_error c = false -> 0 <= i -> Forall (fun a => (a < length h)%nat) args ->
  let '(c', rc', h', cells) := share c rc i h ps args in
  (rc' = true <-> rc = true /\ forall j p a, nth_error ps j = Some p -> nth_error args j = Some a -> admits (noundef c) (types p) (get h a)) /\
  (rc' = true -> c' = c) /\ length cells = length ps /\ (exists new, h' = h ++ new) /\
  (forall j p cell, nth_error ps j = Some p -> nth_error cells j = Some cell -> held h h' p (nth_error args j) cell) /\
  (forall j k x, nth_error cells j = Some x -> nth_error cells k = Some x -> (length args <= j)%nat -> j = k).
Proof.
  induction ps as [|p ps IH]; intros c rc i h args N E I FA.
  - cbn [share]. split; [split; [intros ->; split; [reflexivity|intros [|j] ? ? X; discriminate]|tauto]|]. split; [auto|]. split; [reflexivity|].
    split; [exists []; now rewrite app_nil_r|]. split; [intros [|j] ? ? X; discriminate|intros [|j] ? ? X; discriminate].
  - rewrite share_cons. rewrite ptype_mask.
    set (ck := match args, pd p with
               | a :: _, _ => if rc then arg_type_check c (mask (types p)) (get h a) (i + 1) false else (c, rc)
               | [], Some d => if rc then arg_type_check c (mask (types p)) (dvalue d) (i + 1) true else (c, rc)
               | [], None => (c, rc) end).
    assert (CK : let (c1, rc1) := ck in no_check c1 = false /\ no_error c1 = false /\ (rc1 = true -> c1 = c) /\
      (rc1 = true <-> rc = true /\ forall a, nth_error args 0 = Some a -> admits (noundef c) (types p) (get h a))).
    { unfold ck. clear ck. destruct args as [|a args].
      - assert (X : forall d, pd p = Some d -> arg_type_check c (mask (types p)) (dvalue d) (i + 1) true = (c, true)).
        { intros d D. apply check_default; [lia|]. unfold types. rewrite D. apply in_or_app. right. now left. }
        assert (Y : rc = true <-> rc = true /\ forall a, nth_error (@nil nat) 0 = Some a -> admits (noundef c) (types p) (get h a)) by (split; [split; [assumption|discriminate]|tauto]).
        destruct (pd p) as [d|]; [|auto]. destruct rc; [|auto]. rewrite (X d eq_refl). auto.
      - destruct rc.
        + pose proof (check_arg c (types p) (get h a) (i + 1) N E ltac:(lia)) as H. pose proof (check_keeps c (mask (types p)) (get h a) (i + 1) false) as K.
          destruct (arg_type_check c _ _ _ _) as [c1 rc1]. destruct H as [H1 H2]. destruct K as [K1 K2].
          split; [congruence|]. split; [congruence|]. split; [exact H2|]. split.
          * intros R. split; [reflexivity|]. intros b B. cbn in B. injection B as <-. tauto.
          * intros [_ B]. apply H1. now apply B.
        + split; [exact N|]. split; [exact E|]. split; [discriminate|]. split; [discriminate|tauto]. }
    destruct ck as [c1 rc1]. destruct CK as (N1 & E1 & C1 & R1).
    set (al := match args, pd p return heap * nat with a :: _, _ => (h, a) | [], Some d => alloc h (dvalue d) | [], None => alloc h undefined end).
    assert (AL : let (h1, cell) := al in exists new, h1 = h ++ new /\ match args with [] => cell = length h /\ length new = 1%nat /\ get h1 cell = match pd p with Some d => dvalue d | None => undefined end | a :: _ => cell = a end).
    { unfold al. destruct args as [|a args].
      - destruct (pd p) as [d|]; unfold alloc; eexists; (split; [reflexivity|]); repeat split; unfold get; rewrite app_nth2, Nat.sub_diag by lia; reflexivity.
      - exists []. rewrite app_nil_r. auto. }
    destruct al as [h1 cell]. destruct AL as (new & EH & AL).
    assert (FA1 : Forall (fun a => (a < length h1)%nat) (tl args)).
    { rewrite Forall_forall in *. intros x X. rewrite EH, app_length. assert (In x args) by (destruct args; [destruct X|now right]). specialize (FA x H). lia. }
    specialize (IH c1 rc1 (i + 1) h1 (tl args) N1 E1 ltac:(lia) FA1). destruct (share c1 rc1 (i + 1) h1 ps (tl args)) as [[[c2 rc2] h2] cells].
    destruct IH as (A1 & A2 & A3 & (new2 & A4) & A5 & A6).
    assert (TL : forall j, nth_error (tl args) j = nth_error args (S j)) by (intros j; destruct args; [destruct j|]; reflexivity).
    assert (ADM : rc1 = true -> (forall j q a, nth_error ps j = Some q -> nth_error (tl args) j = Some a -> admits (noundef c1) (types q) (get h1 a)) <->
                   (forall j q a, nth_error ps j = Some q -> nth_error args (S j) = Some a -> admits (noundef c) (types q) (get h a))).
    { intros R. rewrite (C1 R) in *. split; intros H j q a Q X.
      - assert (G : get h1 a = get h a). { rewrite EH. apply get_app. rewrite Forall_forall in FA. apply FA. eapply nth_error_In; exact X. }
        rewrite <- G. apply (H j q a Q). now rewrite TL.
      - rewrite TL in X. assert (G : get h1 a = get h a). { rewrite EH. apply get_app. rewrite Forall_forall in FA. apply FA. eapply nth_error_In; exact X. }
        rewrite G. now apply (H j q a Q). }
    cbv beta iota. split; [|split; [|split; [|split; [|split]]]].
    + split.
      * intros R. apply A1 in R as [R R']. pose proof (proj1 (ADM R) R') as AD. apply R1 in R as [R R2]. split; [exact R|]. intros [|j] q a Q X; [cbn in Q; injection Q as <-; now apply R2|].
        now apply (AD j).
      * intros [R R']. assert (RR : rc1 = true) by (apply R1; split; [exact R|]; intros a X; now apply (R' 0%nat p a)). apply A1. split; [exact RR|]. apply (ADM RR).
        intros j q a Q X. now apply (R' (S j)).
    + intros R. rewrite (A2 R). apply C1. apply A1 in R. tauto.
    + cbn [length]. now rewrite A3.
    + exists (new ++ new2). rewrite A4, EH. now rewrite app_assoc.
    + intros [|j] q x Q X; cbn in Q, X.
      * injection Q as <-. injection X as <-. destruct args as [|a args]; cbn [nth_error held]; [|exact AL]. destruct AL as (-> & L1 & G). subst h1. rewrite A4, !app_length. split; [lia|].
        rewrite get_app; [exact G|]. rewrite app_length. lia.
      * specialize (A5 j q x Q X). rewrite TL in A5. unfold held in *. destruct (nth_error args (S j)); [exact A5|]. destruct A5 as [A5 A5']. split; [|exact A5'].
        rewrite EH, app_length in A5. lia.
    + assert (FR : forall k x, nth_error cells k = Some x -> nth_error (tl args) k = None -> (length h1 <= x)%nat).
      { intros k x X Y. destruct (nth_error ps k) as [q|] eqn:Q; [|apply nth_error_None in Q; rewrite <- A3 in Q; apply nth_error_None in Q; congruence].
        specialize (A5 k q x Q X). unfold held in A5. rewrite Y in A5. lia. }
      intros [|j] [|k] x X Y L; cbn in X, Y; auto.
      * exfalso. injection X as <-. destruct args as [|a args]; [|cbn in L; lia]. destruct AL as (-> & L1 & _). specialize (FR k _ Y). rewrite EH, app_length in FR.
        assert (nth_error (tl (@nil nat)) k = None) by (destruct k; reflexivity). apply FR in H. lia.
      * exfalso. injection Y as <-. assert (Z0 : nth_error (tl args) j = None) by (apply nth_error_None; destruct args; cbn in *; lia). specialize (FR j _ X Z0). rewrite EH, app_length in FR.
        destruct args as [|a args]; [lia|]. subst cell. inversion FA; subst. lia.
      * f_equal. apply (A6 j k x X Y). destruct args; cbn in *; lia.
Qed.
Lemma needed_before ps : needed ps = before_default ps.
Proof. induction ps as [|[n [d|]] ps IH]; cbn; auto. Qed.
Lemma call_check_spec c f n : no_check c = false -> no_error c = false ->
  let (c', ok) := call_check c f n in (ok = true <-> number_fits f n) /\ (ok = true -> c' = c) /\ no_check c' = false /\ no_error c' = false.
Proof.
  intros N E. unfold call_check, number_fits, min_args. rewrite N, needed_before. pose proof (mismatch_keeps c) as [M1 M2]. unfold mismatch. rewrite E.
  destruct (varargs f).
  - destruct (Nat.leb_spec (before_default (params f)) n) as [L|L]; (split; [|split; [|split]]); auto; try congruence; try discriminate; split; auto; try discriminate; intros [X _]; lia.
  - destruct (Nat.ltb_spec n (before_default (params f))) as [L|L]; cbn [orb].
    + split; [split; [discriminate|]; intros [X _]; lia|]. split; [discriminate|]. split; congruence.
    + destruct (Nat.ltb_spec (length (params f)) n) as [L'|L'].
      * split; [split; [discriminate|]; intros [_ [X|X]]; [discriminate|lia]|]. split; [discriminate|]. split; congruence.
      * split; [split; [|reflexivity]; intros _; auto|]. auto.
Qed.
