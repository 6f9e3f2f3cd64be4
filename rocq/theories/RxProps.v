(** * C70, C71: replacing and matching with regular expressions *)
From Coq Require Import ZArith List Bool Lia.
Import ListNotations.
Require Import Verif.StrModel Verif.RxModel Verif.RxSpec Verif.RxProofs.
Local Open Scope Z_scope.

Section P.
Context {St : Type}.

(** ** C70: replace *)
(** s.replace(/re/g, text): the text between the matches is kept, each match gives way to the replacement string with
    $1, $&, ... filled in. *)
Theorem replace_all_text rx nsub r l (st : St) s hs rest : sound rx -> never_empty rx -> no_nul r -> template r l -> no_nul s ->
  successive rx true false s hs rest ->
  replace rx nsub true (RText r) st s = (st, ROk (flat_map (fun h => hbefore h ++ filled l h) hs ++ rest)).
Proof. intros HS HE HR HT HN HH. unfold replace. now rewrite (replace_all_loop rx nsub r l st HS HE HR HT false s hs rest HH) by (auto; lia). Qed.
(** ... and these matches exist and make up the source. *)
Theorem matches_exist rx s : sound rx -> never_empty rx -> no_errors rx ->
  exists hs rest, successive rx true false s hs rest /\ s = flat_map (fun h => hbefore h ++ hmatch h) hs ++ rest.
Proof.
  intros HS HE HB. destruct (successive_exists rx true HS HE HB s false) as (hs & rest & H). exists hs, rest. split; [exact H|].
  eapply successive_whole; eauto.
Qed.
(** Replacing each match by itself changes nothing. *)
Corollary replace_identity rx nsub (st : St) s : sound rx -> never_empty rx -> no_errors rx -> no_nul s ->
  replace rx nsub true (RText [36; 38]) st s = (st, ROk s).
Proof.
  intros HS HE HB HN. destruct (matches_exist rx s HS HE HB) as (hs & rest & H & E).
  rewrite (replace_all_text rx nsub [36; 38] [Group 0] st s hs rest HS HE); auto.
  2: { repeat constructor; lia. } 2: { repeat constructor. }
  do 2 f_equal. rewrite E at 1. f_equal. clear - H HS. remember false as nb eqn:Enb. clear Enb.
  induction H as [|nb s pos hs rest E H IH]; [reflexivity|]. cbn [flat_map]. rewrite IH. do 2 f_equal.
  unfold filled. cbn [flat_map item_text]. rewrite app_nil_r. unfold hit_of. cbn [hgroup hmatch].
  destruct (HS _ _ _ E) as [(A1 & _) _]. destruct (Z.ltb_spec (fst (pos 0%nat)) 0); [lia|reflexivity].
Qed.
(** Without g only the first match is replaced (empty ones as well). *)
Theorem replace_first_text rx nsub r l (st : St) s : sound rx -> no_nul r -> template r l -> no_nul s ->
  match rx false s with
  | Match pos => let h := hit_of s pos in
      replace rx nsub false (RText r) st s = (st, ROk (hbefore h ++ filled l h ++ hafter h)) /\
      s = hbefore h ++ hmatch h ++ hafter h
  | NoMatch => replace rx nsub false (RText r) st s = (st, ROk s)
  | Bad => replace rx nsub false (RText r) st s = (st, RErr)
  end.
Proof.
  intros HS HR HT HN. unfold replace. destruct (rx false s) as [| |pos] eqn:E.
  - cbn [replace_loop]. now rewrite cstr_id, E.
  - cbn [replace_loop]. now rewrite cstr_id, E.
  - cbv zeta. rewrite (replace_text rx nsub false r l st HS HR HT _ _ _ _ _ _ pos E HN eq_refl). cbn [negb orb app].
    split; [now rewrite <- app_assoc|]. destruct (HS _ _ _ E) as [H0 _]. now destruct (hit_parts s pos H0).
Qed.
(** s.replace(/re/g, f): f is called once for each match, in order, with the match, the groups and the offset in bytes. *)
Theorem replace_all_fun rx nsub f (st : St) s hs rest : sound rx -> never_empty rx -> clean f -> (nsub <= 252)%nat -> no_nul s ->
  successive rx true false s hs rest ->
  replace rx nsub true (RFun f) st s =
  match calls f nsub st 0 hs rest with (st', Some t) => (st', ROk t) | (st', None) => (st', RErr) end.
Proof. intros HS HE HC Hn HN HH. unfold replace. now rewrite (replace_fun_loop rx nsub f HS HE HC Hn false s hs rest HH) by (auto; lia). Qed.
(** Whatever the expression, the replacement and the source (even with NUL bytes): it ends and stays in bounds. *)
Theorem replace_safe rx nsub glob rep (st : St) s : sound rx ->
  (exists o, snd (replace rx nsub glob rep st s) = ROk o) \/ snd (replace rx nsub glob rep st s) = RErr.
Proof.
  intros HS. unfold replace.
  destruct (replace_loop_safe rx nsub glob rep HS (S (length s)) st false s (Z.of_nat (length s)) 0 [] ltac:(lia)) as [H1 H2].
  destruct (snd _); try contradiction; eauto.
Qed.
(** s.replace("pat", text) replaces the first occurrence. *)
Theorem replace_string_first pat r (st : St) s i : no_nul s -> no_nul pat -> strstr s pat = Some i ->
  replace_string pat (RText r) st s = (st, ROk (firstn i s ++ r ++ skipn (i + length pat) s)).
Proof.
  intros H1 H2 H. unfold replace_string. rewrite !cstr_id by assumption. rewrite H.
  now rewrite cstr_id by (now apply no_nul_skip).
Qed.
End P.

(** Departures.  An expression that matches the empty string: g stops after it.  [stars]: /x*/ *)
Fixpoint xs (s : list Z) : Z := match s with c :: r => if c =? 120 then 1 + xs r else 0 | [] => 0 end.
Definition stars : engine := fun _ s => Match (fun i => if (i =? 0)%nat then (0, xs s) else (-1, -1)).
Lemma stars_sound : sound stars.
Proof.
  intros nb s pos H. injection H as <-.
  assert (R : 0 <= xs s <= Z.of_nat (length s)).
  { induction s as [|c s IH]; cbn [xs length]; [lia|]. destruct (c =? 120); lia. }
  split; [unfold in_text; cbn; lia|]. intros [|i]; cbn; [right; unfold in_text; cbn; lia|left; reflexivity].
Qed.
(* the string abc with - for each match of /x*/g: ECMAScript says -a-b-c- *)
Theorem replace_empty_refuted : sound stars /\ replace stars 0 true (RText [45]) tt [97; 98; 99] = (tt, ROk [45; 97; 98; 99]).
Proof. split; [exact stars_sound|vm_compute; reflexivity]. Qed.
(* a function is not called for an empty match at the start *)
Theorem replace_empty_fun_refuted :
  replace stars 0 false (RFun (fun n _ _ _ => (S n, Some [45]))) 0%nat [97] = (0%nat, ROk [97]).
Proof. vm_compute. reflexivity. Qed.

(* [word w]: the first occurrence of w; [g1]: its first byte is group 1 *)
Definition word (g1 : bool) (w : list Z) : engine := fun _ s =>
  match strstr s w with
  | None => NoMatch
  | Some k => let k := Z.of_nat k in
      Match (fun i => if (i =? 0)%nat then (k, k + Z.of_nat (length w)) else if g1 && (i =? 1)%nat then (k, k + 1) else (-1, -1))
  end.
(* a $ at the end of the replacement string adds a NUL byte *)
Theorem replace_dollar_refuted : replace (word false [97]) 0 true (RText [36]) tt [97; 98] = (tt, ROk [36; 0; 98]).
Proof. vm_compute. reflexivity. Qed.
(* $` is the text since the last match, not since the start: abcb with [$`] for each b *)
Theorem replace_before_refuted : replace (word false [98]) 0 true (RText [91; 36; 96; 93]) tt [97; 98; 99; 98]
  = (tt, ROk [97; 91; 97; 93; 99; 91; 99; 93]).
Proof. vm_compute. reflexivity. Qed.
(* with a string as pattern the function gets the whole source instead of the match *)
Theorem replace_string_fun_refuted :
  replace_string [98] (RFun (fun st m _ _ => (m, Some [45]))) [] [97; 98; 99] = ([97; 98; 99], ROk [97; 45; 99]).
Proof. vm_compute. reflexivity. Qed.

(** ** C71: match, exec, search, test *)
Lemma slice_ne s r : in_text s r -> fst r < snd r -> slice s r <> [].
Proof.
  destruct r as [a b]. unfold in_text, slice. cbn [fst snd]. intros H1 H2 E. apply (f_equal (@length Z)) in E.
  rewrite firstn_length, skipn_length in E. cbn in E. lia.
Qed.
Lemma push_one rx nb p pos once acc ofs : sound rx -> never_empty rx -> no_nul p -> rx nb p = Match pos ->
  (once = true \/ pos 1%nat = (-1, -1)) ->
  push_groups MAX_SUBREGEX 0 p pos once acc ofs = (acc ++ [slice p (pos 0%nat)], snd (pos 0%nat)).
Proof.
  intros HS HE HN E HO. destruct (HS _ _ _ E) as [H0 _]. specialize (HE _ _ _ E). pose proof H0 as (A1 & A2 & A3).
  unfold MAX_SUBREGEX. change 256%nat with (S (S 254)). generalize 254%nat as k. intros k. cbn [push_groups]. unfold so, eo.
  destruct (Z.leb_spec (snd (pos 0%nat)) 0); [lia|]. rewrite andb_false_r. cbn [Nat.eqb negb andb].
  rewrite substr_dup_slice by assumption. destruct once; [reflexivity|]. destruct HO as [HO|HO]; [discriminate|].
  rewrite HO. reflexivity.
Qed.
Lemma match_all_loop rx : sound rx -> never_empty rx -> forall nb p hs rest, successive rx true nb p hs rest ->
  forall fuel acc ofs, no_nul p -> (length p < fuel)%nat ->
  matches_loop fuel rx true true false nb p (Z.of_nat (length p)) acc ofs =
  match acc ++ map hmatch hs with [] => MNull | l => MArray l (match hs with [] => ofs | _ => 0 + last (map (fun h => Z.of_nat (length (hbefore h) + length (hmatch h))) hs) 0 end) end.
Proof.
  intros HS HE nb p hs rest HH. induction HH as [nb p E|nb p pos hs rest E HH IH]; intros fuel acc ofs HN HF; destruct fuel as [|fuel]; try lia.
  - cbn [matches_loop]. rewrite cstr_id, E by assumption. cbn [map]. rewrite app_nil_r. destruct acc; reflexivity.
  - destruct (HS _ _ _ E) as [H0 _]. pose proof (HE _ _ _ E) as HX. pose proof H0 as (A1 & A2 & A3).
    destruct (hit_parts p pos H0) as (_ & L1 & L2).
    cbn [matches_loop]. rewrite cstr_id, E by assumption. cbn [andb].
    rewrite (push_one rx nb p pos true acc ofs HS HE HN E) by auto. cbn [negb andb orb]. rewrite !andb_false_r.
    unfold eo. destruct (Z.ltb_spec (Z.of_nat (length p)) (snd (pos 0%nat))); [lia|].
    assert (LA : Z.of_nat (length p) - snd (pos 0%nat) = Z.of_nat (length (hafter (hit_of p pos)))).
    { unfold hit_of. cbn [hafter]. rewrite skipn_length. lia. }
    rewrite LA. change (skipn (Z.to_nat (snd (pos 0%nat))) p) with (hafter (hit_of p pos)).
    destruct (Z.ltb_spec 0 (snd (pos 0%nat))); [|lia]. rewrite andb_true_r.
    change (slice p (pos 0%nat)) with (hmatch (hit_of p pos)). cbn [map].
    assert (OF : snd (pos 0%nat) = Z.of_nat (length (hbefore (hit_of p pos)) + length (hmatch (hit_of p pos)))) by lia.
    destruct (Z.eqb_spec (Z.of_nat (length (hafter (hit_of p pos)))) 0) as [L|L]; cbn [negb].
    + assert (E0 : hafter (hit_of p pos) = []) by (destruct (hafter (hit_of p pos)); [reflexivity|cbn in L; lia]).
      rewrite E0 in *. destruct (successive_nil _ _ _ _ _ HS HE HH) as [-> ->]. cbn [map last].
      rewrite OF. destruct (acc ++ [hmatch (hit_of p pos)]) eqn:Q; [now destruct acc|reflexivity].
    + pose proof (hit_shorter rx nb p pos HS HE E).
      rewrite IH by (try apply hit_no_nul; auto; lia). rewrite <- app_assoc. cbn [app].
      destruct (acc ++ hmatch (hit_of p pos) :: map hmatch hs) eqn:Q; [now destruct acc|].
      f_equal. rewrite OF. destruct hs; reflexivity.
Qed.
(** s.match(/re/g): null if nothing matches, else all matches in order. *)
Theorem match_all rx s hs rest : sound rx -> never_empty rx -> no_nul s -> successive rx true false s hs rest ->
  match hs with
  | [] => match_cmd rx true s = MNull
  | _ => exists ofs, match_cmd rx true s = MArray (map hmatch hs) ofs
  end.
Proof.
  intros HS HE HN HH. unfold match_cmd. rewrite (match_all_loop rx HS HE false s hs rest HH) by (auto; lia). cbn [app].
  destruct hs as [|h hs]; [reflexivity|]. cbn [map]. eexists. reflexivity.
Qed.
(** s.match(/re/) without g: an array that starts with the first match. *)
Lemma push_keeps k : forall i p pos once acc ofs, exists l, fst (push_groups k i p pos once acc ofs) = acc ++ l.
Proof.
  induction k as [|k IH]; intros i p pos once acc ofs; cbn [push_groups]; [exists []; now rewrite app_nil_r|].
  destruct (_ && _); [exists []; now rewrite app_nil_r|]. destruct (_ && _ && _); [apply IH|].
  destruct once; [cbn [fst]; eauto|].
  match goal with |- context [push_groups k ?i' p pos false ?a ?o] => destruct (IH i' p pos false a o) as (l & ->) end.
  rewrite <- app_assoc. eauto.
Qed.
Theorem match_first rx s : sound rx -> never_empty rx -> no_nul s ->
  match rx false s with
  | NoMatch => match_cmd rx false s = MNull
  | Bad => match_cmd rx false s = MErr
  | Match pos => exists l ofs, match_cmd rx false s = MArray (slice s (pos 0%nat) :: l) ofs
  end.
Proof.
  intros HS HE HN. unfold match_cmd. destruct (rx false s) as [| |pos] eqn:E; cbn [matches_loop]; rewrite cstr_id, E by assumption; try reflexivity.
  destruct (HS _ _ _ E) as [H0 _]. pose proof (HE _ _ _ E) as HX. pose proof H0 as (A1 & A2 & A3).
  unfold MAX_SUBREGEX. change 256%nat with (S 255). generalize 255%nat as k. intros k. cbn [push_groups]. unfold so, eo.
  destruct (Z.leb_spec (snd (pos 0%nat)) 0); [lia|]. rewrite andb_false_r. cbn [Nat.eqb negb andb app].
  rewrite substr_dup_slice by assumption.
  match goal with |- context [push_groups k 1 s pos false ?a ?o] => destruct (push_keeps k 1 s pos false a o) as (l & P); destruct (push_groups k 1 s pos false a o) as [acc' ofs'] end.
  cbn [fst] in P. subst acc'. cbn [app length Nat.eqb negb andb]. eauto.
Qed.
(** ... and goes on with the groups 1 .. n, provided they all took part, none is empty at the start of the text and none
    has the place of the one before it. *)
Lemma push_list s pos n : forall k i acc ofs, no_nul s -> (i <= S n)%nat -> (S n - i < k)%nat ->
  (forall j, (i <= j <= n)%nat -> in_text s (pos j) /\ 0 < snd (pos j) /\ (j <> 0%nat -> pos j <> pos (j - 1)%nat)) ->
  pos (S n) = (-1, -1) ->
  fst (push_groups k i s pos false acc ofs) = acc ++ map (fun j => slice s (pos j)) (seq i (S n - i)).
Proof.
  induction k as [|k IH]; intros i acc ofs HN Hi Hk HJ HE; [lia|]. cbn [push_groups]. unfold so, eo.
  destruct (Nat.eq_dec i (S n)) as [->|NE].
  - rewrite HE, Nat.sub_diag. cbn. now rewrite app_nil_r.
  - destruct (HJ i ltac:(lia)) as (A & B & C). destruct (Z.leb_spec (snd (pos i)) 0); [lia|]. rewrite andb_false_r.
    assert (D : negb (i =? 0)%nat && (fst (pos i) =? fst (pos (i - 1)%nat)) && (snd (pos i) =? snd (pos (i - 1)%nat)) = false).
    { destruct (Nat.eqb_spec i 0) as [|Hz]; [reflexivity|]. specialize (C Hz).
      destruct (Z.eqb_spec (fst (pos i)) (fst (pos (i - 1)%nat))); [|reflexivity].
      destruct (Z.eqb_spec (snd (pos i)) (snd (pos (i - 1)%nat))); [|reflexivity].
      exfalso. apply C. destruct (pos i), (pos (i - 1)%nat). cbn in *. congruence. }
    rewrite D. rewrite IH; auto; try lia.
    2: { intros j Hj. apply HJ. lia. }
    rewrite substr_dup_slice by assumption. rewrite <- app_assoc. f_equal.
    replace (S n - i)%nat with (S (S n - S i)) by lia. reflexivity.
Qed.
Theorem match_groups rx s pos n : sound rx -> no_nul s -> rx false s = Match pos -> fst (pos 0%nat) < snd (pos 0%nat) -> (n <= 254)%nat ->
  (forall i, (1 <= i <= n)%nat -> 0 <= fst (pos i) /\ 0 < snd (pos i) /\ pos i <> pos (i - 1)%nat) -> pos (S n) = (-1, -1) ->
  exists ofs, match_cmd rx false s = MArray (map (fun i => slice s (pos i)) (seq 0 (S n))) ofs.
Proof.
  intros HS HN E HX Hn HJ HE. unfold match_cmd. cbn [matches_loop]. rewrite cstr_id, E by assumption. cbn [andb].
  destruct (HS _ _ _ E) as [H0 HI].
  pose proof (push_list s pos n MAX_SUBREGEX 0 [] 0 HN ltac:(lia) ltac:(unfold MAX_SUBREGEX; lia)) as P.
  rewrite Nat.sub_0_r in P. cbn [app] in P.
  destruct (push_groups MAX_SUBREGEX 0 s pos false [] 0) as [acc' ofs']. cbn [fst] in P.
  rewrite P; [|intros j Hj; destruct j as [|j]|exact HE].
  - cbn [seq map length Nat.eqb negb andb]. eauto.
  - repeat split; [apply H0..| |congruence]. destruct H0 as (A1 & A2 & A3). lia.
  - destruct (HJ (S j) ltac:(lia)) as (A & B & C). split; [|auto]. destruct (HI (S j)) as [Q|Q]; [rewrite Q in A; cbn in A; lia|exact Q].
Qed.
(** search is where the first match is, or -1; test says whether there is one. *)
Theorem search_test rx s : no_nul s ->
  match rx false s with
  | NoMatch => search_cmd rx s = Some (-1) /\ test_cmd rx s = Some false
  | Match pos => search_cmd rx s = Some (fst (pos 0%nat)) /\ test_cmd rx s = Some true
  | Bad => search_cmd rx s = None /\ test_cmd rx s = None
  end.
Proof. intros HN. unfold search_cmd, test_cmd. rewrite cstr_id by assumption. destruct (rx false s); auto. Qed.

(** re.exec(s) with g, and without groups: the match after lastIndex, and lastIndex moves behind it. *)
Theorem exec_step rx shared l s : sound rx -> never_empty rx -> no_groups rx -> no_nul s -> 0 <= l <= Z.of_nat (length s) ->
  let p := skipn (Z.to_nat l) s in
  match rx false p with
  | NoMatch => exec_cmd rx true shared (Some l) s = (ENull, 0, Some 0)
  | Match pos => exec_cmd rx true shared (Some l) s = (EArray [slice p (pos 0%nat)], l + snd (pos 0%nat), Some (l + snd (pos 0%nat)))
  | Bad => exec_cmd rx true shared (Some l) s = (EErr, l, Some l)
  end.
Proof.
  intros HS HE HG HN HL p. unfold exec_cmd.
  assert (ST : (if l <? Z.of_nat (length s) then (if l <? 0 then None else Some (skipn (Z.to_nat l) s)) else Some []) = Some p).
  { destruct (Z.ltb_spec l (Z.of_nat (length s))).
    - destruct (Z.ltb_spec l 0); [lia|]. reflexivity.
    - unfold p. rewrite skipn_all2 by lia. reflexivity. }
  rewrite ST. assert (HP : no_nul p) by (now apply no_nul_skip).
  destruct (rx false p) as [| |pos] eqn:E; cbn [matches_loop]; rewrite cstr_id, E by assumption; try reflexivity.
  rewrite (push_one rx false p pos _ [] 0 HS HE HP E) by (right; apply (HG _ _ _ 1%nat E); lia).
  reflexivity.
Qed.
(** Calling exec until it gives null lists all matches. *)
Theorem exec_enumerates rx s hs rest : sound rx -> never_empty rx -> no_groups rx -> no_nul s ->
  successive rx false false s hs rest ->
  forall shared, exec_all (S (length s)) rx shared (Some 0) s = Some (map (fun h => [hmatch h]) hs).
Proof.
  intros HS HE HG HN HH.
  assert (G : forall nb p hs rest, successive rx false nb p hs rest -> nb = false -> forall l shared n, 0 <= l <= Z.of_nat (length s) ->
    p = skipn (Z.to_nat l) s -> (length p < n)%nat -> exec_all n rx shared (Some l) s = Some (map (fun h => [hmatch h]) hs)).
  { clear hs rest HH. intros nb p hs rest HH. induction HH as [nb p E|nb p pos hs rest E HH IH]; intros -> l shared n HL EP Hn; destruct n as [|n]; try lia.
    - cbn [exec_all]. pose proof (exec_step rx shared l s HS HE HG HN HL) as X. cbv zeta in X. rewrite <- EP, E in X. rewrite X. reflexivity.
    - cbn [exec_all]. pose proof (exec_step rx shared l s HS HE HG HN HL) as X. cbv zeta in X. rewrite <- EP, E in X. rewrite X.
      destruct (HS _ _ _ E) as [(A1 & A2 & A3) _]. pose proof (HE _ _ _ E) as HX. pose proof (hit_shorter rx false p pos HS HE E) as SH.
      assert (LP : Z.of_nat (length p) = Z.of_nat (length s) - l) by (rewrite EP, skipn_length; lia).
      rewrite (IH eq_refl (l + snd (pos 0%nat)) _ n); [reflexivity|lia| |lia].
      unfold hit_of. cbn [hafter]. rewrite EP.
      assert (SS : forall n m (k : list Z), skipn n (skipn m k) = skipn (m + n) k).
      { intros a m. revert a. induction m as [|m IHm]; intros a [|x k]; cbn; auto. now destruct a. }
      rewrite SS. f_equal. lia. }
  intros shared. apply (G false s hs rest HH eq_refl 0 shared); [lia|reflexivity|lia].
Qed.

(** Departures: groups that took no part, and those after them, are left out; ... *)
(* /(a)|(b)/ on b *)
Definition ab : engine := fun _ s => match s with
  | c :: _ => if c =? 97 then Match (fun i => match i with 0%nat | 1%nat => (0, 1) | _ => (-1, -1) end)
              else if c =? 98 then Match (fun i => match i with 0%nat | 2%nat => (0, 1) | _ => (-1, -1) end) else NoMatch
  | [] => NoMatch end.
Theorem match_groups_refuted : match_cmd ab false [98] = MArray [[98]] 1 /\
  hgroup (hit_of [98] (fun i => match i with 0%nat | 2%nat => (0, 1) | _ => (-1, -1) end)) 2 = Some [98].
Proof. vm_compute. auto. Qed.
(* a group that covers the whole match is left out: /(a)/ on a *)
Theorem match_same_group_refuted : match_cmd (word true [97]) false [97] = MArray [[97]] 1 /\
  exists pos, word true [97] false [97] = Match pos /\ hgroup (hit_of [97] pos) 1 = Some [97].
Proof. split; [vm_compute; reflexivity|]. eexists. split; [reflexivity|]. vm_compute. reflexivity. Qed.
(* ... exec with a group goes on to the next matches, even without g: /(a)b/ on abab; *)
Theorem exec_group_refuted : exec_cmd (word true [97; 98]) false 0 None [97; 98; 97; 98]
  = (EArray [[97; 98]; [97]; [97; 98]; [97]], 0, None).
Proof. vm_compute. reflexivity. Qed.
(* with g lastIndex is behind the last group instead of behind the match: /(a)b/g on ab; *)
Theorem exec_last_index_refuted : exec_cmd (word true [97; 98]) true 0 (Some 0) [97; 98] = (EArray [[97; 98]; [97]], 1, Some 1).
Proof. vm_compute. reflexivity. Qed.
(* a new RegExp starts where another one with the same text stopped: /a/g on xa, then a new /a/g on a; *)
Theorem exec_shared_refuted :
  let '(r1, shared, _) := exec_cmd (word false [97]) true 0 None [120; 97] in
  r1 = EArray [[97]] /\ exec_cmd (word false [97]) true shared None [97] = (ENull, 0, Some 0).
Proof. vm_compute. auto. Qed.
(* a negative lastIndex makes exec read in front of the string *)
Theorem exec_negative_refuted : exec_cmd (word false [97]) true 0 (Some (-1)) [97] = (EOut, -1, Some (-1)).
Proof. vm_compute. reflexivity. Qed.

(** Concrete cases that meet the hypotheses *)
Lemma strstr_bound w : forall s k, strstr s w = Some k -> (k + length w <= length s)%nat.
Proof.
  assert (PB : forall w s, prefixb w s = true -> (length w <= length s)%nat).
  { clear. induction w as [|c w IH]; intros s H; [cbn; lia|]. destruct s as [|d s]; cbn [prefixb] in H; [discriminate|].
    apply andb_true_iff in H. destruct H as [_ H]. apply IH in H. cbn. lia. }
  induction s as [|c s IH]; intros k; cbn [strstr].
  - destruct (prefixb w []) eqn:P; [|discriminate]. intros H. injection H as <-. apply PB in P. lia.
  - destruct (prefixb w (c :: s)) eqn:P; [intros H; injection H as <-; apply PB in P; lia|].
    destruct (strstr s w) as [j|]; [|discriminate]. cbn [option_map]. intros H. injection H as <-. specialize (IH j eq_refl). cbn [length]. lia.
Qed.
Example word_ok w g : w <> [] -> sound (word g w) /\ never_empty (word g w) /\ no_errors (word g w).
Proof.
  intros Hw. assert (L : (0 < length w)%nat) by (destruct w; [contradiction|cbn; lia]).
  split; [|split].
  - intros nb s pos H. unfold word in H. destruct (strstr s w) as [k|] eqn:E; [|discriminate]. apply strstr_bound in E. injection H as <-.
    split; [unfold in_text; cbn; lia|]. intros [|[|i]]; cbn; try (right; unfold in_text; cbn; lia).
    + destruct g; cbn; [right; unfold in_text; cbn; lia|left; reflexivity].
    + rewrite andb_false_r. left. reflexivity.
  - intros nb s pos H. unfold word in H. destruct (strstr s w) as [k|] eqn:E; [|discriminate]. injection H as <-. cbn. lia.
  - intros nb s. unfold word. destruct (strstr s w); discriminate.
Qed.
Example word_groups w : no_groups (word false w).
Proof.
  intros nb s pos i H Hi. unfold word in H. destruct (strstr s w) as [k|]; [|discriminate]. injection H as <-.
  destruct i; [lia|]. reflexivity.
Qed.
(* cabxab with <$1> for ab *)
Example replace_case : replace (word true [97; 98]) 1 true (RText [60; 36; 49; 62]) tt [99; 97; 98; 120; 97; 98]
  = (tt, ROk [99; 60; 97; 62; 120; 60; 97; 62]).
Proof. vm_compute. reflexivity. Qed.
Example replace_case_template : template [60; 36; 49; 62] [Lit 60; Group 1; Lit 62].
Proof. constructor; [lia|]. apply (t_group 1); [lia|]. constructor; [lia|]. constructor. Qed.
Example exec_case : exec_all 5 (word false [97]) 0 (Some 0) [97; 98; 97; 97] = Some [[[97]]; [[97]]; [[97]]].
Proof. vm_compute. reflexivity. Qed.
(* /(a)b/ on cab *)
Example match_groups_case : exists ofs, match_cmd (word true [97; 98]) false [99; 97; 98] = MArray [[97; 98]; [97]] ofs.
Proof.
  destruct (match_groups (word true [97; 98]) [99; 97; 98] (fun i => if (i =? 0)%nat then (1, 3) else if (i =? 1)%nat then (1, 2) else (-1, -1)) 1) as (ofs & H);
    [apply word_ok; discriminate|repeat constructor; lia|reflexivity|cbn; lia|lia| |reflexivity|].
  - intros i Hi. replace i with 1%nat by lia. cbn. repeat split; try lia. discriminate.
  - exists ofs. exact H.
Qed.
