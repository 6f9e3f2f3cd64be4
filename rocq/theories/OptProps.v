(** * C78 (names of options), C79 (setting options), C80 (protected options), C81 (enumerations and sets) *)
From Coq Require Import ZArith List Bool Lia SpecFloat.
Import ListNotations.
Require Import Verif.Bits Verif.StrModel Verif.NumModel Verif.OpsModel Verif.OpsProofs Verif.MiscModel Verif.OptModel Verif.OptSpec Verif.OptProofs Verif.OptProofs2 Verif.OptProofs3 Verif.OptProofs4 Verif.OptProofs5.
Require Verif.StrSpec Verif.CodecSpec.
Local Open Scope Z_scope.
Local Notation str := (list Z).

(** ** C78 *)
Theorem option_exact l n s : n <> [] -> In s l -> exactly n s -> (forall t, In t l -> exactly n t -> t = s) ->
  ~ (exists a t b u d e, l = a ++ t :: b ++ u :: d ++ s :: e /\ longer n t /\ longer n u) -> find l n = Some s.
Proof.
  intros N I X U A. assert (D : exists l1 l2, l = l1 ++ s :: l2 /\ Forall (fun t => ~ exactly n t) l1).
  { clear A. induction l as [|t l IH]; [contradiction|]. destruct (list_eq_dec Z.eq_dec (sname t) n) as [E|E].
    - exists [], l. split; [|constructor]. cbn. f_equal. apply U; [now left|exact E].
    - destruct I as [->|I]; [contradiction|]. destruct (IH I) as (l1 & l2 & -> & F). { intros u J. apply U. now right. } exists (t :: l1), l2. split; [reflexivity|]. now constructor. }
  destruct D as (l1 & l2 & -> & F). unfold find. rewrite find_through by assumption. destruct (filter (longerb n) l1) as [|t [|u r]] eqn:FL; try (now apply find_here).
  exfalso. assert (SP : forall l t u r, filter (longerb n) l = t :: u :: r -> exists a b c, l = a ++ t :: b ++ u :: c /\ longer n t /\ longer n u).
  { clear. induction l as [|x l IH]; intros t u r H; [discriminate|]. cbn [filter] in H. destruct (longerb n x) eqn:L.
    - injection H as -> H. assert (Iu : In u l /\ longerb n u = true) by (apply filter_In; rewrite H; now left). destruct Iu as [Iu Lu]. apply in_split in Iu as (b & c & ->).
      exists [], b, c. split; [reflexivity|]. split; now apply longerb_iff.
    - destruct (IH _ _ _ H) as (a & b & c & -> & Q). exists (x :: a), b, c. auto. }
  destruct (SP _ _ _ _ FL) as (a & b & d & -> & L1 & L2). apply A. exists a, t, b, u, d, l2. split; [|auto]. rewrite <- !app_assoc. cbn [app]. rewrite <- !app_assoc. reflexivity.
Qed.
Theorem option_prefix l n s : n <> [] -> In s l -> longer n s -> Forall (fun t => ~ exactly n t) l ->
  (forall l1 l2, l = l1 ++ s :: l2 -> Forall (fun t => ~ longer n t) (l1 ++ l2)) -> find l n = Some s.
Proof.
  intros N I L F U. apply in_split in I as (l1 & l2 & ->). specialize (U l1 l2 eq_refl). apply Forall_app in U as [U1 U2].
  unfold find. rewrite <- (app_nil_r (l1 ++ s :: l2)), find_through by assumption. rewrite filter_app. cbn [filter].
  assert (E : forall k, Forall (fun t => ~ longer n t) k -> filter (longerb n) k = []).
  { intros k Hk. induction Hk as [|x k H1 H2 IH]; [reflexivity|]. cbn [filter]. destruct (longerb n x) eqn:X; [apply longerb_iff in X; contradiction|exact IH]. }
  rewrite (E l1 U1), (E l2 U2). apply longerb_iff in L. rewrite L. reflexivity.
Qed.
Theorem option_ambiguous l1 s l2 t l3 n : n <> [] -> longer n s -> longer n t -> Forall (fun u => ~ exactly n u) (l1 ++ s :: l2 ++ [t]) -> find (l1 ++ s :: l2 ++ t :: l3) n = None.
Proof.
  intros N L1 L2 F. unfold find. replace (l1 ++ s :: l2 ++ t :: l3) with ((l1 ++ s :: l2 ++ [t]) ++ l3) by (rewrite <- !app_assoc; cbn [app]; rewrite <- !app_assoc; reflexivity).
  rewrite find_through by assumption. rewrite !filter_app. cbn [filter]. apply longerb_iff in L1, L2. rewrite L1. rewrite filter_app. cbn [filter]. rewrite L2.
  destruct (filter (longerb n) l1) as [|x [|y r]]; [|reflexivity|reflexivity]. destruct (filter (longerb n) l2); reflexivity.
Qed.
Theorem option_unknown l n : n <> [] -> Forall (fun t => ~ exactly n t /\ ~ longer n t) l -> find l n = None.
Proof.
  intros N F. destruct (find l n) as [s|] eqn:E; [|reflexivity]. destruct (find_in l n s N E) as [I [X|X]]; rewrite Forall_forall in F; destruct (F s I); contradiction.
Qed.
Theorem option_found l n s : n <> [] -> find l n = Some s -> In s l /\ (exactly n s \/ longer n s).
Proof. apply find_in. Qed.

(** ** C79 *)
Definition plain_flags (c : cfg) (s : spec) : Prop := pass2 (hd_of s) = false /\ ~ protected c s.
Lemma not_refused c s : ~ protected c s -> refused c (mkFl true false false) (hd_of s) = false.
Proof.
  intros N. unfold refused, protected in *. cbn [update]. destruct (readonly (hd_of s)); [destruct N; auto|]. destruct (initonly (hd_of s)); [destruct N; auto|].
  destruct (safe c); [|reflexivity]. destruct (locksafe (hd_of s)); [destruct N; auto|reflexivity].
Qed.
Section P.
Context (junk : Z) (c : cfg).
(** What a successful call leaves is read back, for every option that is no structure and no set. *)
Theorem conf_reads specs m l1 k v l2 m' h kd : wf_all specs -> conf junk c m specs (VObj (l1 ++ (k, v) :: l2)) = Ok m' ->
  find specs k = Some (Leaf h kd) -> pass2 h = false -> plain kd -> clean v -> Forall (fun kv => find specs (fst kv) <> Some (Leaf h kd)) l2 ->
  exists w, takes kd (size h) v w /\ get_option m' 0 (Leaf h kd) = Done w.
Proof.
  intros W H F P2 PL CL N. cbn [conf] in H. destruct (process_sets junk c _ 0 specs m l1 k v l2 m' (Leaf h kd) W H F P2 N) as (_ & m1 & m2 & S1 & S2). cbn [set_option] in S1.
  destruct v as [| |b|x|s|l|l|i|i]; cbn [set_option] in S1.
  all: assert (Wl : wf (Leaf h kd)) by (eapply wf_all_in; [exact W|eapply find_member; exact F]).
  all: match type of S1 with set_leaf _ _ _ _ _ (Some ?v) = _ => destruct (leaf_only_takes junk h kd v m1 _ m2 Wl PL CL S1) as (w & T); exists w; split; [exact T|];
         destruct (leaf_takes junk h kd v w m1 (0 + off h) Wl T) as (m3 & E1 & E2); rewrite S1 in E1; injection E1 as <- end.
  all: cbn [get_option]; rewrite (get_leaf_ext h kd m' m2 0 Wl); [exact E2| |exact S2].
  all: destruct kd; try exact Logic.I; contradiction.
Qed.
(** Options no member stands for are as before, also after an error. *)
Theorem conf_others specs m ms m' s : wf_all specs -> conf junk c m specs (VObj ms) = Ok m' \/ conf junk c m specs (VObj ms) = Err m' -> In s specs ->
  Forall (fun kv => find specs (fst kv) <> Some s) ms -> forall i, inside 0 s i -> m' i = m i.
Proof. intros W H I N i Hi. apply (process_others junk c (mkFl true false false) 0 specs m ms s W I eq_refl N m' H i Hi). Qed.
(** A call whose members stand for options that are not protected, with values they take, succeeds. *)
Theorem conf_accepts specs m ms : wf_all specs -> specs <> [] ->
  Forall (fun kv => exists h kd w, find specs (fst kv) = Some (Leaf h kd) /\ plain_flags c (Leaf h kd) /\ takes kd (size h) (snd kv) w) ms ->
  exists m', conf junk c m specs (VObj ms) = Ok m'.
Proof.
  intros W N F. cbn [conf]. unfold process, process_with. destruct specs as [|s0 specs0]; [contradiction|]. remember (s0 :: specs0) as specs eqn:E. clear E N.
  assert (G : forall ms, Forall (fun kv => exists h kd w, find specs (fst kv) = Some (Leaf h kd) /\ plain_flags c (Leaf h kd) /\ takes kd (size h) (snd kv) w) ms ->
    forall m seen, exists m', members c (set_option junk c) (mkFl true false false) 0 specs m ms seen = Ok m').
  { clear F ms m. induction ms as [|[k v] ms IH]; intros F m seen; cbn [members]; [eexists; reflexivity|]. inversion F as [|? ? (h & kd & w & F1 & [P1 P2] & T) F2]; subst. cbn [fst snd] in *.
    rewrite F1. cbn [second hd_of] in *. rewrite P1. cbn [negb eqb]. pose proof (not_refused c _ P2) as RF. cbn [hd_of] in RF. rewrite RF.
    destruct (leaf_takes junk h kd v w m (0 + off h) (wf_all_in _ _ W (find_member _ _ _ F1)) T) as (m1 & E1 & _).
    replace (set_option junk c v (mkFl true false false) m 0 (Leaf h kd)) with (set_leaf junk m (0 + off h) (size h) kd (Some v)) by (destruct v; reflexivity). rewrite E1. apply IH; exact F2. }
  destruct (G ms F m []) as (m' & ->). eauto.
Qed.
(** And a call that succeeds has only such members, at the top; or the option is a structure or a set, or compat is on. *)
Theorem conf_checks specs m l1 k v l2 m' : compat c = false -> wf_all specs -> conf junk c m specs (VObj (l1 ++ (k, v) :: l2)) = Ok m' ->
  exists s, find specs k = Some s /\ (pass2 (hd_of s) = true \/ ~ protected c s /\
    forall h kd, s = Leaf h kd -> plain kd -> clean v -> exists w, takes kd (size h) v w).
Proof.
  intros CP W H. destruct (find specs k) as [s|] eqn:F.
  - exists s. split; [reflexivity|]. destruct (pass2 (hd_of s)) eqn:P2; [now left|]. right. cbn [conf] in H. unfold process, process_with in H. destruct specs as [|s0 specs0]; [discriminate|]. remember (s0 :: specs0) as specs eqn:E. clear E.
    destruct (members c (set_option junk c) (mkFl true false false) 0 specs m (l1 ++ (k, v) :: l2) []) as [m0|m0|] eqn:M; try discriminate.
    destruct (members_ok_inv junk c (mkFl true false false) 0 specs k v s l2 F P2 _ _ _ _ M) as (RF & m1 & m2 & seen & S1 & _). split.
    + unfold refused in RF. cbn [update] in RF. apply orb_false_elim in RF as [RF R3]. apply orb_false_elim in RF as [R1 R2]. cbn in R2. rewrite andb_true_r in R3. intros [X|[X|[X Y]]]; [congruence|congruence|]. rewrite X, Y in R3. discriminate.
    + intros h kd -> PL CL. apply (leaf_only_takes junk h kd v m1 (0 + off h) m2); auto; [eapply wf_all_in; [exact W|eapply find_member; exact F]|]. destruct v; exact S1.
  - exfalso. cbn [conf] in H. unfold process, process_with in H. destruct specs as [|s0 specs0]; [discriminate|]. remember (s0 :: specs0) as specs eqn:E. clear E.
    assert (G : forall l1 m seen m', members c (set_option junk c) (mkFl true false false) 0 specs m (l1 ++ (k, v) :: l2) seen <> Ok m').
    { clear H l1 m m'. induction l1 as [|[k1 v1] l1 IH]; intros m seen m'; cbn [app members ignore].
      - rewrite F, CP. discriminate.
      - destruct (find specs k1) as [t|]; [|rewrite CP; discriminate]. destruct (negb (eqb _ _)); [apply IH|]. destruct (refused _ _ _); [discriminate|]. destruct (set_option _ _ _ _ _ _ _); try discriminate. apply IH. }
    destruct (members c (set_option junk c) (mkFl true false false) 0 specs m (l1 ++ (k, v) :: l2) []) eqn:M; try discriminate. now apply G in M.
Qed.
(** Required options, when an object is made with its options. *)
Theorem required_given specs m ms m' s : wf_all specs -> process junk c (mkFl false false false) m 0 specs ms = Ok m' -> In s specs -> required (hd_of s) = true ->
  exists kv, In kv ms /\ find specs (fst kv) = Some s.
Proof. intros W H I R. eapply process_required; eauto. Qed.
(** A value that is refused leaves the option alone, but for NaN. *)
Theorem refused_same h kd v m a m' : set_leaf junk m a (size h) kd (Some v) = Err m' -> (kd = LNum -> v <> VNum S754_nan) -> m' = m.
Proof. apply leaf_refused. Qed.

(** ** C80 *)
Theorem confs_protected specs m m' : wf_all specs -> specs <> [] -> confs junk c specs m m' -> forall i, guarded c 0 specs i -> m' i = m i.
Proof.
  intros W N H. induction H as [m|m m1 m2 v S SP H IH]; intros i Hi; [reflexivity|]. rewrite (IH i Hi). destruct v as [| |b|x|s|l|ms|j|j]; cbn [conf] in S.
  all: try (destruct S as [S|S]; [discriminate|injection S as <-; reflexivity]).
  - destruct specs; [contradiction|]. destruct S as [S|S]; [injection S as <-; reflexivity|discriminate].
  - pose (h := mkH [] 0 0 false false false false false). assert (Wh : wf (Sub h specs)) by (constructor; [cbn; lia|exact N|exact W]).
    assert (SS : spares (VObj ms) (Sub h specs)) by (cbn [spares]; apply spares_members; apply SP; reflexivity).
    pose proof (protected_kept junk c (VObj ms) h specs (mkFl true false false) m 0 Wh eq_refl SS) as K. cbn [set_option] in K. change (0 + off h) with 0 in K. exact (K m1 S i Hi).
Qed.
(** An object without null anywhere. *)
Fixpoint no_null (v : val) : Prop :=
  match v with
  | VNull => False
  | VObj ms => (fix go (ms : list (str * val)) : Prop := match ms with [] => True | (_, v) :: r => no_null v /\ go r end) ms
  | _ => True
  end.
Lemma no_null_spares : forall v s, no_null v -> spares v s.
Proof.
  apply (val_rec' (fun v => forall s, no_null v -> spares v s)); try (intros; match goal with s : spec |- _ => destruct s end; cbn in *; auto; fail).
  intros ms IH [h k|h l|h n item] H; cbn [spares]; auto. apply spares_members. revert H. induction IH as [|[k v] r H1 H2 IH']; intros H; [constructor|]. cbn [no_null] in H. destruct H as [Ha Hb]. constructor.
  - cbn [fst snd] in *. intros t _. now apply H1.
  - now apply IH'.
Qed.
End P.
Definition after (r : res) : mem := match r with Ok m | Err m => m | Undef => fun _ => CPad end.
Definition succeeds (r : res) : bool := match r with Ok _ => true | _ => false end.
Definition fails (r : res) : bool := match r with Err _ => true | _ => false end.
Lemma ok_after r : succeeds r = true -> r = Ok (after r).
Proof. destruct r; [reflexivity|discriminate|discriminate]. Qed.
Lemma err_after r : fails r = true -> r = Err (after r).
Proof. destruct r; [discriminate|reflexivity|discriminate]. Qed.
Lemma ok_ex r (P : mem -> Prop) : succeeds r = true -> P (after r) -> exists m', r = Ok m' /\ P m'.
Proof. intros H1 H2. exists (after r). split; [now apply ok_after|exact H2]. Qed.
Lemma err_ex r (P : mem -> Prop) : fails r = true -> P (after r) -> exists m', r = Err m' /\ P m'.
Proof. intros H1 H2. exists (after r). split; [now apply err_after|exact H2]. Qed.
(** conf({sub:null}) resets sub, whatever flags its options have; so do the options of the elements of an array. *)
Definition hd1 (n : str) (o sz : Z) (ro : bool) : head := mkH n o sz ro false false false false.
Definition sub_null : list spec := [Sub (hd1 [115] 0 4 false) [Leaf (hd1 [98] 0 4 true) (LInt 4 true)]].
Definition arr_init : list spec := [Arr (hd1 [97] 0 0 false) 1 (Sub (hd1 [97] 0 4 false) [Leaf (mkH [98] 0 4 false true false false false) (LInt 4 true)])].
Definition c0 : cfg := mkC false false.
Definition m0 : mem := fun _ => CByte 7.
Theorem sub_null_refuted : wf_all sub_null /\ guarded c0 0 sub_null 0 /\ exists m', conf 0 c0 m0 sub_null (VObj [([115], VNull)]) = Ok m' /\ m' 0 <> m0 0.
Proof.
  split; [|split; [|apply ok_ex; [vm_compute; reflexivity|intros H; vm_compute in H; discriminate]]].
  - constructor; [|constructor|discriminate|constructor]. constructor; [cbn; lia|discriminate|]. constructor; [|constructor|discriminate|constructor]. constructor; [cbn; lia|cbn; tauto].
  - eapply g_within; [now left|]. eapply g_here; [now left|left; reflexivity|]. unfold inside. cbn. lia.
Qed.
(** In an array the flag of an update is lost: options that are only for the start are set. *)
Theorem array_init_refuted : wf_all arr_init /\ exists m',
  conf 0 c0 m0 arr_init (VObj [([97], VArr [Some (VObj [([98], VNum (of_int 1))])])]) = Ok m' /\ get_leaf m' 0 4 (LInt 4 true) = Done (VNum (of_int 1)).
Proof.
  split; [|apply ok_ex; vm_compute; reflexivity].
  constructor; [|constructor|discriminate|constructor]. constructor; [cbn; lia|lia| |reflexivity|cbn; lia]. constructor; [cbn; lia|discriminate|]. constructor; [|constructor|discriminate|constructor]. constructor; [cbn; lia|cbn; tauto].
Qed.
Ltac wfl := constructor; [cbn; lia|cbn; try reflexivity; try exact Logic.I; try lia; tauto].
Ltac wfd := repeat (constructor; [split; [discriminate|unfold apart, inside; cbn; intros; lia]|]); constructor.
(** An exact name that comes after two longer ones is not found. *)
Definition exact_late : list spec := [Leaf (hd1 [97; 98] 0 1 false) LBool; Leaf (hd1 [97; 99] 1 1 false) LBool; Leaf (hd1 [97] 2 1 false) LBool].
Theorem option_exact_refuted : wf_all exact_late /\ find exact_late [97] = None.
Proof.
  split; [|reflexivity]. unfold exact_late. constructor; [wfl| |discriminate|wfd]. constructor; [wfl| |discriminate|wfd]. constructor; [wfl|constructor|discriminate|wfd].
Qed.
(** A call that fails has set what comes before the error; and a NaN that is refused is stored. *)
Definition two : list spec := [Leaf (hd1 [97] 0 8 false) LNum; Leaf (hd1 [98] 8 8 false) LNum].
Theorem conf_error_refuted : exists m', conf 0 c0 m0 two (VObj [([97], VNum (of_int 1)); ([98], VNull)]) = Err m' /\ m' 0 = CNum (of_int 1).
Proof. apply err_ex; [vm_compute; reflexivity|]. repeat split; vm_compute; reflexivity. Qed.
Theorem nan_refuted : exists m', conf 0 c0 m0 two (VObj [([97], VNum S754_nan)]) = Err m' /\ m' 0 = CNum S754_nan.
Proof. apply err_ex; [vm_compute; reflexivity|]. repeat split; vm_compute; reflexivity. Qed.
(** NaN and Infinity for an 8-byte integer. *)
Theorem wide_nan_refuted : exists m', set_leaf 0 m0 0 8 (LInt 8 true) (Some (VNum S754_nan)) = Ok m' /\ get_leaf m' 0 8 (LInt 8 true) = Done (VNum (of_int (- 2 ^ 63))).
Proof. apply ok_ex; [vm_compute; reflexivity|]. repeat split; vm_compute; reflexivity. Qed.

(** ** C81 *)
Section Q.
Context (junk : Z).
(** An enumeration takes a name of its table and reads as this name. *)
Theorem enum_exact h names nc ex un m a n name : wf (Leaf h (LEnum names nc ex un)) -> (length names <= 128)%nat ->
  MiscModel.get_index ex nc names name = Some (Z.of_nat n) -> nth_error names n = Some name ->
  exists m', set_leaf junk m a (size h) (LEnum names nc ex un) (Some (VStr name)) = Ok m' /\ get_leaf m' a (size h) (LEnum names nc ex un) = Done (VStr name).
Proof.
  intros W L G N. apply leaf_takes; [exact W|]. apply t_enum with (n := n); [exact G|exact N|]. assert (H : (n < length names)%nat) by (apply nth_error_Some; congruence). lia.
Qed.
(** A set of four bytes with at most 31 names: "a,!b" then reading gives the names that are in. *)
Theorem set_text_reads m a names nc (ass : bool) (s s1 : str) m' : (length names <= 31)%nat -> text_bytes s1 -> s1 <> [] ->
  s = (if ass then 61 :: s1 else s1) -> (ass = false -> forall r, s <> 61 :: r) ->
  set_leaf junk m a 4 (LBitset names nc) (Some (VStr s)) = Ok m' ->
  exists (l : list str) (on : Z -> bool), StrSpec.cut (fun sep => sep = [44]) s1 l /\
    (forall i, 0 <= i < 32 -> turns nc names i l (if ass then false else Z.testbit (load_u m a 4) i) (on i)) /\
    get_leaf m' a 4 (LBitset names nc) = Done (VArr (map (fun s => Some (VStr s)) (chosen names on 0))).
Proof.
  intros L T N E NA H. cbn [set_leaf] in H. destruct (bitset_text m a 4 names nc ass s s1 eq_refl L T N E NA) as (l & CT & _ & B1 & B2).
  exists l, (fun i => Z.testbit (load_u m' a 4) i). split; [exact CT|]. split; [|apply bitset_reads; lia].
  intros i Hi. destruct (pieces_dec nc names 4 ass l) as [F|F].
  - destruct (B1 F) as (m2 & E1 & E2). rewrite H in E1. injection E1 as <-. apply E2. lia.
  - rewrite (B2 F) in H. discriminate.
Qed.
End Q.

(** A set of one to eight bytes with at most 31 names, from a string, an array; and from an object if it has one byte. *)
Theorem set_text m a sz names nc (ass : bool) s s1 : good_size sz = true -> (length names <= 31)%nat -> text_bytes s1 -> s1 <> [] ->
  s = (if ass then 61 :: s1 else s1) -> (ass = false -> forall r, s <> 61 :: r) ->
  exists l : list str, StrSpec.cut (fun sep => sep = [44]) s1 l /\
    (Forall (fun p => exists n, stands_for nc names p n /\ n < sz * 8 /\ (ass = true -> fst (piece p) = true)) l ->
       exists m', set_bitset m a sz names nc (Some (VStr s)) = Ok m' /\
         forall i, 0 <= i < sz * 8 -> turns nc names i l (if ass then false else Z.testbit (load_u m a (Z.to_nat sz)) i) (Z.testbit (load_u m' a (Z.to_nat sz)) i)) /\
    (~ Forall (fun p => exists n, stands_for nc names p n /\ n < sz * 8 /\ (ass = true -> fst (piece p) = true)) l -> set_bitset m a sz names nc (Some (VStr s)) = Err m).
Proof. intros. destruct (bitset_text m a sz names nc ass s s1) as (l & A & _ & B & D); auto. exists l. auto. Qed.
Theorem set_array m a sz names nc l : good_size sz = true -> (length names <= 31)%nat -> l <> [] -> hd [] l <> [61] ->
  (Forall (fun s => exists n, stands_for nc names s n) l -> exists m', set_bitset m a sz names nc (Some (VArr (map (fun s => Some (VStr s)) l))) = Ok m' /\
     forall i, 0 <= i < sz * 8 -> turns nc names i l (Z.testbit (load_u m a (Z.to_nat sz)) i) (Z.testbit (load_u m' a (Z.to_nat sz)) i)) /\
  (~ Forall (fun s => exists n, stands_for nc names s n) l -> set_bitset m a sz names nc (Some (VArr (map (fun s => Some (VStr s)) l))) = Err m).
Proof. apply bitset_array. Qed.
Theorem set_object_byte m a names nc ms : (length names <= 8)%nat -> Forall (fun kv => hd 0 (fst kv) <> 33) ms -> Forall (fun kv => exists n, MiscModel.get_index false nc names (fst kv) = Some n) ms ->
  exists m', set_bitset m a 1 names nc (Some (VObj (map (fun kv => (fst kv, VBool (snd kv))) ms))) = Ok m' /\
     forall i, 0 <= i < 8 -> turns nc names i (map (fun kv : str * bool => if snd kv then fst kv else 33 :: fst kv) ms) (Z.testbit (load_u m a 1) i) (Z.testbit (load_u m' a 1) i).
Proof. apply bitset_object. Qed.
(** {h:true} for a set of four bytes does not put in a name after the eighth, without an error; an empty array takes all out. *)
Definition nine : list str := map (fun i => [97 + Z.of_nat i]) (seq 0 9).
Theorem set_object_refuted : exists m', set_bitset (fun _ => CByte 0) 0 4 nine false (Some (VObj [([105], VBool true)])) = Ok m' /\
  get_leaf m' 0 4 (LBitset nine false) = Done (VArr []) /\ MiscModel.get_index false false nine [105] = Some 8.
Proof. apply ok_ex; [vm_compute; reflexivity|]. repeat split; vm_compute; reflexivity. Qed.
Theorem set_empty_refuted : exists m', set_bitset (fun _ => CByte 1) 0 4 nine false (Some (VArr [])) = Ok m' /\ load_u m' 0 4 = 0.
Proof. apply ok_ex; [vm_compute; reflexivity|]. repeat split; vm_compute; reflexivity. Qed.
(** A set of one byte reads the bytes after it as well. *)
Theorem set_small_refuted : get_leaf (fun i => CByte (if i =? 1 then 1 else 0)) 0 1 (LBitset nine false) = Done (VArr [Some (VStr [105])]).
Proof. vm_compute. reflexivity. Qed.
(** The name with the number 31 puts in, in a set of eight bytes, all the bits from 31 on; 32 is undefined behaviour. *)
Theorem set_31_refuted : set_bit 0 31 true = Some (2 ^ 64 - 2 ^ 31) /\ set_bit 0 32 true = None.
Proof. split; reflexivity. Qed.
(** A negative number reads as the first name. *)
Theorem enum_negative_refuted : get_leaf (store_int (fun _ => CPad) 0 4 (-5)) 0 4 (LEnum nine false false false) = Done (VStr [97]).
Proof. vm_compute. reflexivity. Qed.

(** ** Cases *)
Definition hd2 (n : str) (o sz : Z) (io ls rq : bool) : head := mkH n o sz false io ls rq false.
(** { name: string of 8; count: int; ratio: number; mode: enum; flags: set; sub: { lim: int, initonly; on: bool } } *)
Definition demo : list spec :=
  [ Leaf (hd2 [110; 97] 0 8 false false true) LStrbuf; Leaf (hd2 [110; 99] 8 4 false false false) (LInt 4 true); Leaf (hd2 [114] 12 8 false true false) LNum;
    Leaf (hd2 [109] 20 4 false false false) (LEnum nine false false false); Leaf (hd2 [102] 24 4 false false false) (LBitset nine false);
    Sub (hd2 [115] 28 8 false false false) [Leaf (hd2 [108] 0 4 true false false) (LInt 4 true); Leaf (hd2 [111] 4 1 false false false) LBool] ].
Lemma demo_wf : wf_all demo.
Proof.
  unfold demo. constructor; [wfl| |discriminate|wfd]. constructor; [wfl| |discriminate|wfd]. constructor; [wfl| |discriminate|wfd]. constructor; [wfl| |discriminate|wfd]. constructor; [wfl| |discriminate|wfd].
  constructor; [|constructor|discriminate|wfd]. constructor; [cbn; lia|discriminate|]. constructor; [wfl| |discriminate|wfd]. constructor; [wfl|constructor|discriminate|wfd].
Qed.
Definition zero : mem := fun i => if i =? 12 then CNum (S754_zero false) else CByte 0.
Definition call1 : val := VObj [([109], VStr [99]); ([110; 99], VNum (of_int 5)); ([110; 97], VStr [104; 105]); ([102], VStr [97; 44; 99]); ([115], VObj [([111], VBool true)]); ([110; 99], VNum (of_int (-7)))].
Example ex_conf : exists m', conf 0 c0 zero demo call1 = Ok m' /\
  map (get_option m' 0) demo = [Done (VStr [104; 105]); Done (VNum (of_int (-7))); Done (VNum (S754_zero false)); Done (VStr [99]); Done (VArr [Some (VStr [97]); Some (VStr [99])]);
    Done (VObj [([108], VNum (of_int 0)); ([111], VBool true)])].
Proof. apply ok_ex; vm_compute; reflexivity. Qed.
Example ex_protected : fails (conf 0 c0 zero demo (VObj [([115], VObj [([108], VNum (of_int 1))])])) = true /\
  fails (conf 0 (mkC true false) zero demo (VObj [([114], VNum (of_int 1))])) = true /\ succeeds (conf 0 c0 zero demo (VObj [([114], VNum (of_int 1))])) = true /\
  guarded c0 0 demo 28 /\ guarded (mkC true false) 0 demo 12.
Proof.
  split; [vm_compute; reflexivity|]. split; [vm_compute; reflexivity|]. split; [vm_compute; reflexivity|]. split.
  - eapply g_within; [right; right; right; right; right; now left|]. eapply g_here; [now left|right; left; reflexivity|]. unfold inside. cbn. lia.
  - eapply g_here; [right; right; now left|right; right; split; reflexivity|]. unfold inside. cbn. lia.
Qed.
Example ex_names : find demo [110] = None /\ option_map sname (find demo [110; 99]) = Some [110; 99] /\ option_map sname (find demo [115]) = Some [115].
Proof. repeat split; reflexivity. Qed.
Definition call2 : val := VObj [([110; 99], VNum (of_int 3)); ([120], VBool true)].
Example ex_history : confs 0 c0 demo zero (after (conf 0 c0 (after (conf 0 c0 zero demo call1)) demo call2)) /\
  get_leaf (after (conf 0 c0 (after (conf 0 c0 zero demo call1)) demo call2)) 8 4 (LInt 4 true) = Done (VNum (of_int 3)).
Proof.
  split; [|vm_compute; reflexivity]. apply confs_one with (m1 := after (conf 0 c0 zero demo call1)) (v := call1); [left; apply ok_after; vm_compute; reflexivity| |].
  - intros ms H. injection H as <-. repeat (constructor; [intros t _; apply no_null_spares; cbn; tauto|]). constructor.
  - eapply confs_one with (v := call2); [right; apply err_after; vm_compute; reflexivity| |apply confs_none].
    intros ms H. injection H as <-. repeat (constructor; [intros t _; apply no_null_spares; cbn; tauto|]). constructor.
Qed.
Example ex_required : fails (process 0 c0 (mkFl false false false) zero 0 demo [([110; 99], VNum (of_int 3))]) = true /\
  succeeds (process 0 c0 (mkFl false false false) zero 0 demo [([110; 97], VStr [])]) = true.
Proof. split; vm_compute; reflexivity. Qed.
