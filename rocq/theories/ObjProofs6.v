(** * Enumerating properties *)
From Coq Require Import ZArith List Bool Lia PeanoNat Sorting.Sorted.
Import ListNotations.
Require Import Verif.TreeModel Verif.TreeSpec Verif.TreeProps Verif.ObjModel Verif.ObjSpec Verif.ObjProofs Verif.ObjProofs2 Verif.ObjProofs3 Verif.ObjProofs4.
Local Open Scope nat_scope.

Lemma add_keys_0 ks : forall acc, add_keys 0 acc ks = acc ++ ks.
Proof.
  unfold add_keys. induction ks as [|k ks IH]; intros acc; cbn [fold_left Nat.eqb negb andb]; [now rewrite app_nil_r|]. rewrite IH, <- app_assoc. reflexivity.
Qed.
Lemma existsb_key k l : existsb (keqb k) l = true <-> In k l.
Proof.
  rewrite existsb_exists. split.
  - intros (x & A & B). apply keqb_eq in B as ->. exact A.
  - intros A. exists k. split; [exact A|apply keqb_refl].
Qed.
Lemma nodup_snoc {A} (l : list A) x : NoDup l -> ~ In x l -> NoDup (l ++ [x]).
Proof.
  induction l as [|y l IH]; cbn; intros N H; [repeat constructor; auto|]. inversion N; subst. constructor; [|apply IH; auto].
  rewrite in_app_iff. cbn. intuition.
Qed.
Lemma add_keys_cons d acc k ks : add_keys d acc (k :: ks) = add_keys d (if negb (d =? 0) && existsb (keqb k) acc then acc else acc ++ [k]) ks.
Proof. reflexivity. Qed.
Lemma add_keys_S d ks : forall acc, exists r, add_keys (S d) acc ks = acc ++ r /\ (NoDup acc -> NoDup (acc ++ r)) /\ forall k, In k (acc ++ r) <-> In k acc \/ In k ks.
Proof.
  induction ks as [|k ks IH]; intros acc.
  - exists []. rewrite app_nil_r. cbn. intuition.
  - rewrite add_keys_cons. cbn [Nat.eqb negb andb]. destruct (existsb (keqb k) acc) eqn:E.
    + apply existsb_key in E. destruct (IH acc) as (r & -> & B & C). exists r. split; [reflexivity|]. split; [exact B|]. intros k'. rewrite C. cbn. intuition congruence.
    + assert (~ In k acc) by (rewrite <- existsb_key; congruence). destruct (IH (acc ++ [k])) as (r & -> & B & C). exists (k :: r).
      rewrite <- app_assoc in *. cbn [app] in *. split; [reflexivity|]. split; [intros N; apply B; now apply nodup_snoc|].
      intros k'. rewrite C, in_app_iff. cbn. intuition.
Qed.
Lemma iter_line s o l : line s o l -> forall fuel d acc, length l <= fuel ->
  exists r, iter_keys fuel (S d) s o acc = Some (acc ++ r) /\ (NoDup acc -> NoDup (acc ++ r)) /\
    forall k, In k (acc ++ r) <-> In k acc \/ exists h, In h l /\ In k (enum s h).
Proof.
  intros H. induction H as [o H|o p l H L IH]; intros [|fuel] d acc F; cbn [length] in F; try lia; cbn [iter_keys]; unfold parent in H.
  - destruct (nth_error (objs s) o) as [b|] eqn:E.
    + rewrite H. destruct (add_keys_S d (enum_keys (props b)) acc) as (r & -> & B & C). exists r. split; [reflexivity|]. split; [exact B|].
      intros k. rewrite C. unfold enum_keys. split; intros [A|A]; auto.
      * right. exists o. split; [now left|]. unfold enum. now rewrite E.
      * destruct A as (h & [<-|[]] & A). unfold enum in A. rewrite E in A. now right.
    + exists []. rewrite app_nil_r. split; [reflexivity|]. split; [auto|]. intros k. split; [auto|]. intros [A|(h & [<-|[]] & A)]; [exact A|].
      unfold enum in A. rewrite E in A. destruct A.
  - destruct (nth_error (objs s) o) as [b|] eqn:E; [|discriminate]. rewrite H.
    destruct (add_keys_S d (enum_keys (props b)) acc) as (r & -> & B & C). destruct (IH fuel (S d) (acc ++ r)) as (r' & -> & B' & C'); [lia|].
    exists (r ++ r'). rewrite <- app_assoc in *. split; [reflexivity|]. split; [auto|]. intros k. rewrite C', C. unfold enum_keys. split.
    + intros [[A|A]|(h & A & A')]; auto; right; [exists o|exists h]; split; cbn; auto. unfold enum. now rewrite E.
    + intros [A|(h & [<-|A] & A')]; auto; [|right; eauto]. unfold enum in A'. rewrite E in A'. auto.
Qed.
Lemma enum_nodup s o : wf s -> NoDup (enum s o).
Proof.
  intros W. unfold enum. destruct (nth_error (objs s) o) as [b|] eqn:E; [|constructor]. pose proof (wf_keys s W _ _ E) as N.
  induction (props b) as [|e r IH]; cbn; [constructor|]. cbn in N. inversion N; subst. destruct (een e); cbn; [constructor|]; auto.
  intros X. apply H1. clear - X. induction r as [|a r IH]; cbn in *; [auto|]. destruct (een a); cbn in X; intuition.
Qed.
Lemma keys_line s o l : wf s -> line s o l -> exists_obj s o ->
  exists r, object_keys s o = Some (enum s o ++ r) /\ NoDup (enum s o ++ r) /\ forall k, In k (enum s o ++ r) <-> exists h, In h l /\ In k (enum s h).
Proof.
  intros W L HO. pose proof (line_length s o l W L HO) as LL. pose proof (enum_nodup s o W) as N. unfold object_keys. cbn [iter_keys].
  unfold exists_obj in HO. destruct (nth_error (objs s) o) as [b|] eqn:E; [|apply nth_error_None in E; lia]. rewrite add_keys_0. cbn [app].
  assert (EN : enum_keys (props b) = enum s o) by (unfold enum; now rewrite E). rewrite EN. inversion L as [? H|? p m H M]; subst; unfold parent in H; rewrite E in H.
  - rewrite H. exists []. rewrite app_nil_r. split; [reflexivity|]. split; [exact N|]. intros k. split; [|intros (h & [<-|[]] & A); exact A].
    intros A. exists o. split; [now left|exact A].
  - rewrite H. cbn [length] in LL. destruct (iter_line s p m M (length (objs s)) 0 (enum s o)) as (r & -> & A & B); [lia|]. exists r.
    split; [reflexivity|]. split; [auto|]. intros k. rewrite B. split.
    + intros [C|(h & C & D)]; [exists o|exists h]; split; cbn; auto.
    + intros (h & [<-|C] & D); [auto|right; eauto].
Qed.
Lemma inherits_line s o l h : line s o l -> (inherits s o h <-> In h l).
Proof.
  intros L. split.
  - intros H. revert l L. induction H as [o|o p h P H IH]; intros l L; inversion L as [? X|? q m X M]; subst; cbn; auto; [congruence|].
    right. apply IH. congruence.
  - induction L as [o P|o p l P L IH]; cbn; [intros [<-|[]]; constructor|]. intros [<-|H]; [constructor|]. econstructor; [exact P|]. now apply IH.
Qed.
Lemma present_some fuel s o k b : present fuel s o k = Some b -> (b = true <-> has s o k).
Proof.
  revert o. induction fuel as [|fuel IH]; intros o H; cbn [present] in H; [discriminate|].
  assert (F : forall o h, inherits s o h -> parent s o = None -> h = o) by (intros ? ? [|? ? ? P _]; congruence).
  destruct (nth_error (objs s) o) as [x|] eqn:E.
  - destruct (find_key k (props x)) as [c|] eqn:K.
    + injection H as <-. split; auto. intros _. exists o. split; [constructor|]. unfold own, at_val. cbn [at_place]. rewrite E, K. discriminate.
    + assert (N : own s o k = None) by (unfold own, at_val; cbn [at_place]; now rewrite E, K). destruct (proto x) as [p|] eqn:P.
      * apply IH in H. rewrite H. assert (PP : parent s o = Some p) by (unfold parent; now rewrite E).
        split; intros (h & A & B); [exists h; split; [econstructor; eassumption|exact B]|]. inversion A; subst; [congruence|].
        exists h. split; [|exact B]. congruence.
      * injection H as <-. split; [discriminate|]. intros (h & A & B). apply F in A as ->; [congruence|]. unfold parent. now rewrite E.
  - injection H as <-. split; [discriminate|]. intros (h & A & B). apply F in A as ->; [|unfold parent; now rewrite E].
    unfold own, at_val in B. cbn [at_place] in B. rewrite E in B. now contradiction B.
Qed.
Lemma present_line s o l k : line s o l -> forall fuel, length l <= fuel -> present fuel s o k <> None.
Proof.
  intros H. induction H as [o H|o p l H L IH]; intros [|fuel] F; cbn [length] in F; try lia; cbn [present]; unfold parent in H;
    destruct (nth_error (objs s) o) as [b|]; try discriminate; rewrite H; destruct (find_key k (props b)); try discriminate. apply IH. lia.
Qed.

Lemma part_in_all {A} (l m : list A) : part l m -> forall x, In x l -> In x m.
Proof. induction 1; cbn; intuition. Qed.
Lemma part_nodup {A} (l m : list A) : part l m -> NoDup m -> NoDup l.
Proof. induction 1; intros N; inversion N; subst; [constructor|constructor; auto|auto]. intros X. apply H2. eapply part_in_all; eassumption. Qed.
Lemma part_refl {A} (l : list A) : part l l.
Proof. induction l; constructor; auto. Qed.
Lemma part_none {A} (l : list A) : part [] l.
Proof. induction l; constructor; auto. Qed.

Section Visits.
Context {X : Type}.
Variable body : st * X -> key -> (st * X) * bool.
Lemma visits_notes o ks : forall s x lg s' x' lg', visits (noting body) o ks (s, (x, lg)) = Some (s', (x', lg')) ->
  exists new, lg' = lg ++ new /\ part (map snd new) ks /\ Forall (fun tk => has (fst tk) o (snd tk)) new.
Proof.
  induction ks as [|k ks IH]; intros s x lg s' x' lg' H; cbn [visits fst] in H.
  - injection H as <- <- <-. exists []. rewrite app_nil_r. repeat split; constructor.
  - destruct (present _ s o k) as [[|]|] eqn:P; [| |discriminate].
    + unfold noting in H at 1. cbn [fst snd] in H. destruct (body (s, x) k) as [[s1 x1] go]. apply present_some in P. destruct go.
      * apply IH in H as (new & -> & A & B). exists ((s, k) :: new). rewrite <- app_assoc. split; [reflexivity|]. cbn [map snd]. split; [now constructor|].
        constructor; [now apply P|exact B].
      * injection H as <- <- <-. exists [(s, k)]. split; [reflexivity|]. split; [constructor; apply part_none|]. constructor; [now apply P|constructor].
    + apply IH in H as (new & A & B & C). exists new. split; [exact A|]. split; [now constructor|exact C].
Qed.
(* a name that the body leaves there is visited *)
Lemma visits_all o ks k : (forall w k', snd (body w k') = true) -> (forall w k', has (fst w) o k -> has (fst (fst (body w k'))) o k) -> In k ks ->
  forall s x lg s' x' lg', has s o k -> visits (noting body) o ks (s, (x, lg)) = Some (s', (x', lg')) -> In k (map snd lg').
Proof.
  intros G K. induction ks as [|k1 ks IH]; intros I s x lg s' x' lg' HS H; [destruct I|]. cbn [visits fst] in H.
  destruct (present _ s o k1) as [[|]|] eqn:P; [| |discriminate].
  - unfold noting in H at 1. cbn [fst snd] in H. pose proof (G (s, x) k1) as G1. pose proof (K (s, x) k1 HS) as K1. destruct (body (s, x) k1) as [[s1 x1] go]. cbn [snd] in G1. subst go.
    destruct I as [->|I].
    + apply visits_notes in H as (new & -> & _). rewrite !map_app, !in_app_iff. cbn. auto.
    + eapply IH; [exact I|exact K1|exact H].
  - destruct I as [->|I]; [apply present_some in P; apply P in HS; discriminate|]. eapply IH; eassumption.
Qed.
Lemma visits_end (G : st -> Prop) o ks : (forall t, G t -> exists l, line t o l /\ length l <= length (objs t)) ->
  (forall s x k, G s -> G (fst (fst (body (s, x) k)))) -> forall s x, G s -> visits body o ks (s, x) <> None.
Proof.
  intros L K. induction ks as [|k ks IH]; intros s x HG; cbn [visits fst]; [discriminate|]. destruct (present _ s o k) as [[|]|] eqn:P.
  - pose proof (K s x k HG) as K1. destruct (body (s, x) k) as [[s1 x1] [|]]; [|discriminate]. apply IH. exact K1.
  - now apply IH.
  - destruct (L s HG) as (l & A & B). exfalso. eapply present_line; [exact A| |exact P]. lia.
Qed.
(* a body that does not touch the objects *)
Lemma visits_pure o : (forall w k, fst (fst (body w k)) = fst w /\ snd (body w k) = true) ->
  forall s ks x lg, (forall k, In k ks -> has s o k) -> (exists l, line s o l /\ length l <= length (objs s)) ->
  exists x', visits (noting body) o ks (s, (x, lg)) = Some (s, (x', lg ++ map (pair s) ks)).
Proof.
  intros HB s ks. induction ks as [|k ks IH]; intros x lg HK HL; cbn [visits fst map]; [rewrite app_nil_r; eauto|].
  destruct (present _ s o k) as [b|] eqn:P.
  - apply present_some in P. rewrite (proj2 P) by (apply HK; now left). unfold noting at 1. cbn [fst snd]. destruct (HB (s, x) k) as [B1 B2].
    destruct (body (s, x) k) as [[s1 x1] go]. cbn [fst snd] in B1, B2. subst. destruct (IH x1 (lg ++ [(s, k)])) as (x' & ->); [intros; apply HK; now right|exact HL|].
    exists x'. rewrite <- app_assoc. reflexivity.
  - destruct HL as (l & A & B). exfalso. eapply present_line; [exact A| |exact P]. lia.
Qed.
End Visits.

(** ** keys are in order *)
Definition ordered (b : obj) : Prop := Forall cstring (map ek (props b)) /\ ascending strcmp (map ek (props b)).
Lemma put_first k c l x : Forall cstring (map ek l) -> cstring k -> cstring x -> ~ In k (map ek l) ->
  Forall (fun y => (strcmp x y < 0)%Z) (map ek l) -> (strcmp x k < 0)%Z -> Forall (fun y => (strcmp x y < 0)%Z) (map ek (put k c l)).
Proof.
  intros CL CK CX NI F H. apply Forall_forall. intros y Y. apply put_keys_in in Y as [->|Y]; [exact H|]. rewrite Forall_forall in F. now apply F.
Qed.
Lemma put_ordered k c l : cstring k -> ~ In k (map ek l) -> Forall cstring (map ek l) -> ascending strcmp (map ek l) ->
  ascending strcmp (map ek (put k c l)).
Proof.
  intros CK. induction l as [|e l IH]; cbn [map put]; intros NI CL AS; [repeat constructor|].
  inversion CL as [|? ? C1 C2]; subst. inversion AS as [|? ? A1 A2]; subst. destruct (Z.ltb_spec (strcmp k (ek e)) 0) as [L|L]; cbn [map ek].
  - constructor; [exact AS|]. constructor; [exact L|]. rewrite Forall_forall in *. intros y Y. eapply strcmp_trans; [exact CK|exact C1|now apply C2|exact L|now apply A2].
  - constructor; [apply IH; auto; cbn in NI; tauto|]. apply put_first; auto; [cbn in NI; tauto|].
    pose proof (strcmp_flip k (ek e)). assert (strcmp k (ek e) <> 0)%Z; [|lia]. intros Z0. apply strcmp_zero in Z0; auto. apply NI. left. congruence.
Qed.
Lemma del_keys_part k l : part (map ek (del_ent k l)) (map ek l).
Proof. induction l as [|e l IH]; cbn; [constructor|]. destruct (negb (keqb (ek e) k)); cbn; constructor; exact IH. Qed.
Lemma part_sorted (R : key -> key -> Prop) l m : part l m -> StronglySorted R m -> StronglySorted R l.
Proof.
  induction 1 as [|x l m H IH|x l m H IH]; intros S0; inversion S0 as [|? ? A B]; subst; [constructor|constructor; [auto|]|auto].
  rewrite Forall_forall in *. intros y Y. apply B. eapply part_in_all; eassumption.
Qed.
Lemma enum_part l : part (map ek (filter een l)) (map ek l).
Proof. induction l as [|e l IH]; cbn; [constructor|]. destruct (een e); cbn; constructor; exact IH. Qed.
Lemma step_ordered s x : Forall cstring (keys_of x) -> all_objs ordered s -> all_objs ordered (fst (step s x)).
Proof.
  intros HK. apply (all_step ordered cstring).
  - intros k c b CK [A B]. unfold ordered. cbn [props]. unfold put_ent. destruct (find_key k (props b)) eqn:E.
    + now rewrite replace_keys.
    + apply find_key_none in E. split; [|now apply put_ordered]. apply Forall_forall. intros y Y. apply put_keys_in in Y as [->|Y]; [exact CK|].
      rewrite Forall_forall in A. now apply A.
  - intros k b [A B]. unfold ordered. cbn [props]. split; [|eapply part_sorted; [apply del_keys_part|exact B]].
    rewrite Forall_forall in *. intros y Y. apply A. eapply part_in_all; [apply del_keys_part|exact Y].
  - intros b q f m r H. exact H.
  - intros q e. split; constructor.
  - intros b [A _]. exact A.
  - exact HK.
Qed.
Lemma run_ordered l s : Forall (fun x => Forall cstring (keys_of x)) l -> all_objs ordered s -> all_objs ordered (run s l).
Proof.
  revert s. induction l as [|x l IH]; intros s H A; [exact A|]. inversion H; subst. cbn [run fold_left]. apply IH; [assumption|]. now apply step_ordered.
Qed.
Lemma ordered_enum s o : all_objs ordered s -> ascending strcmp (enum s o).
Proof.
  intros A. unfold enum. destruct (nth_error (objs s) o) as [b|] eqn:E; [|constructor]. eapply part_sorted; [apply enum_part|]. apply (A _ _ E).
Qed.
(* every property is enumerable *)
Definition shown (b : obj) : Prop := forallb een (props b) = true.
Lemma step_shown s x : all_objs shown s -> all_objs shown (fst (step s x)).
Proof.
  apply (all_step shown (fun _ => True)); unfold shown; cbn [props]; auto.
  - intros k c b _ H. unfold put_ent. destruct (find_key k (props b)).
    + unfold replace_ent. rewrite forallb_forall in *. intros y Y. apply in_map_iff in Y as (e & <- & Y). destruct (keqb (ek e) k); cbn; auto.
    + rewrite forallb_forall in *. induction (props b) as [|e l IH]; cbn; [intros y [<-|[]]; reflexivity|].
      destruct (strcmp k (ek e) <? 0)%Z; cbn; intros y Y.
      * destruct Y as [<-|Y]; [reflexivity|]. now apply H.
      * destruct Y as [<-|Y]; [apply H; now left|]. apply IH; [|exact Y]. intros z Z0. apply H. now right.
  - intros k b H. rewrite forallb_forall in *. intros y Y. apply filter_In in Y as [Y _]. now apply H.
  - intros b _. apply Forall_forall. auto.
  - apply Forall_forall. auto.
Qed.
Lemma run_shown l s : all_objs shown s -> all_objs shown (run s l).
Proof. revert s. induction l as [|x l IH]; intros s A; [exact A|]. cbn [run fold_left]. apply IH. now apply step_shown. Qed.
Lemma shown_enum s o k : all_objs shown s -> (In k (enum s o) <-> own s o k <> None).
Proof.
  intros A. unfold enum, own, at_val. cbn [at_place]. destruct (nth_error (objs s) o) as [b|] eqn:E; [|cbn; tauto]. specialize (A _ _ E). unfold shown in A.
  assert (F : filter een (props b) = props b).
  { clear - A. induction (props b) as [|e l IH]; cbn in *; [reflexivity|]. apply andb_prop in A as [-> A]. f_equal. now apply IH. }
  rewrite F. destruct (find_key k (props b)) eqn:K; cbn [option_map].
  - split; [discriminate|]. intros _. apply find_key_in in K as (e & A1 & <- & _). now apply in_map.
  - apply find_key_none in K. tauto.
Qed.
