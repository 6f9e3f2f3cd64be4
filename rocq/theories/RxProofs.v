(** * Proofs about replacing and matching with regular expressions *)
From Coq Require Import ZArith List Bool Lia.
Import ListNotations.
Require Import Verif.RxModel Verif.RxSpec.
Local Open Scope Z_scope.

Definition no_nul (s : list Z) : Prop := Forall (fun c => c <> 0) s.
Lemma cstr_id s : no_nul s -> cstr s = s.
Proof. induction 1 as [|c s Hc H IH]; cbn [cstr]; [reflexivity|]. destruct (Z.eqb_spec c 0); [contradiction|]. now rewrite IH. Qed.
Lemma cstr_le s : (length (cstr s) <= length s)%nat.
Proof. induction s as [|c s IH]; cbn [cstr length]; [lia|]. destruct (c =? 0); cbn [length]; lia. Qed.
Lemma no_nul_skip n s : no_nul s -> no_nul (skipn n s).
Proof. unfold no_nul. rewrite !Forall_forall. intros H x Hx. apply H. rewrite <- (firstn_skipn n s). apply in_or_app. auto. Qed.
Lemma no_nul_take n s : no_nul s -> no_nul (firstn n s).
Proof. unfold no_nul. rewrite !Forall_forall. intros H x Hx. apply H. rewrite <- (firstn_skipn n s). apply in_or_app. auto. Qed.

Lemma bytes_at_slice s r : in_text s r -> bytes_at s (fst r) (snd r - fst r) = Some (slice s r).
Proof.
  destruct r as [a b]. unfold in_text, bytes_at, slice. cbn [fst snd]. intros (H1 & H2 & H3).
  destruct (Z.ltb_spec a 0); [lia|]. destruct (Z.ltb_spec (Z.of_nat (length s)) a); [lia|]. cbn [orb].
  destruct (Z.ltb_spec (b - a) 0); [lia|]. destruct (Z.ltb_spec (Z.of_nat (length s)) (a + (b - a))); [lia|]. reflexivity.
Qed.
Lemma bytes_at_before s b : 0 <= b <= Z.of_nat (length s) -> bytes_at s 0 b = Some (slice s (0, b)).
Proof.
  intros H. pose proof (bytes_at_slice s (0, b)) as B. cbn [fst snd] in B. rewrite Z.sub_0_r in B. apply B.
  unfold in_text. cbn [fst snd]. lia.
Qed.
Lemma substr_dup_slice s r : no_nul s -> in_text s r -> substr_dup s (fst r) (snd r - fst r) = slice s r.
Proof.
  destruct r as [a b]. unfold in_text, substr_dup, slice. cbn [fst snd]. intros HN (H1 & H2 & H3).
  destruct (Z.eqb_spec (b - a) 0) as [E|N]; [rewrite E; reflexivity|]. rewrite cstr_id by assumption.
  destruct (Z.leb_spec (Z.of_nat (length s)) a); [lia|]. destruct (Z.ltb_spec 0 (b - a)); [|lia].
  rewrite Z.min_r by lia. reflexivity.
Qed.
Lemma slice_whole s b : 0 <= b -> slice s (0, b) = firstn (Z.to_nat b) s.
Proof. intros H. unfold slice. cbn [fst snd]. now rewrite Z.sub_0_r. Qed.
Lemma hit_parts s pos : in_text s (pos 0%nat) ->
  s = hbefore (hit_of s pos) ++ hmatch (hit_of s pos) ++ hafter (hit_of s pos) /\
  Z.of_nat (length (hbefore (hit_of s pos))) = fst (pos 0%nat) /\
  Z.of_nat (length (hmatch (hit_of s pos))) = snd (pos 0%nat) - fst (pos 0%nat).
Proof.
  destruct (pos 0%nat) as [a b] eqn:E. unfold in_text. cbn [fst snd]. intros (H1 & H2 & H3).
  unfold hit_of. cbn [hbefore hmatch hafter]. rewrite E. cbn [fst snd]. rewrite slice_whole by lia. unfold slice. cbn [fst snd].
  split; [|split].
  - rewrite <- (firstn_skipn (Z.to_nat a) s) at 1. f_equal.
    rewrite <- (firstn_skipn (Z.to_nat (b - a)) (skipn (Z.to_nat a) s)) at 1. f_equal.
    assert (forall n m (l : list Z), skipn n (skipn m l) = skipn (m + n) l) as SS.
    { intros n m. revert n. induction m as [|m IH]; intros n [|x l]; cbn; auto. now destruct n. }
    rewrite SS. f_equal. lia.
  - rewrite firstn_length. lia.
  - rewrite firstn_length, skipn_length. lia.
Qed.

(** ** The replacement string *)
Lemma group_text s pos i : in_text s (pos i) \/ pos i = (-1, -1) ->
  forall k, (if negb (so pos i =? -1) && negb (eo pos i =? -1) then
     match bytes_at s (so pos i) (eo pos i - so pos i), k with Some a, Some b => Some (a ++ b) | _, _ => None end
   else k) = option_map (app (match hgroup (hit_of s pos) i with Some t => t | None => [] end)) k.
Proof.
  intros H k. unfold hit_of, so, eo. cbn [hgroup]. destruct H as [H|H].
  - rewrite bytes_at_slice by assumption. unfold in_text in H.
    destruct (Z.eqb_spec (fst (pos i)) (-1)); [lia|]. destruct (Z.eqb_spec (snd (pos i)) (-1)); [lia|]. cbn [negb andb].
    destruct (Z.ltb_spec (fst (pos i)) 0); [lia|]. destruct k; reflexivity.
  - rewrite H. cbn. destruct k; reflexivity.
Qed.
Lemma after_text s pos : no_nul s -> in_text s (pos 0%nat) ->
  bytes_at s (eo pos 0) (eo pos 0 - Z.of_nat (length (cstr s))) = Some (hafter (hit_of s pos)).
Proof.
  intros HN (H1 & H2 & H3). unfold hit_of, eo, bytes_at. cbn [hafter]. rewrite cstr_id by assumption.
  set (b := snd (pos 0%nat)) in *.
  destruct (Z.ltb_spec b 0); [lia|]. destruct (Z.ltb_spec (Z.of_nat (length s)) b); [lia|]. cbn [orb].
  destruct (Z.ltb_spec (b - Z.of_nat (length s)) 0).
  - now rewrite cstr_id by (apply no_nul_skip; assumption).
  - destruct (Z.ltb_spec (Z.of_nat (length s)) (b + (b - Z.of_nat (length s)))); [lia|].
    replace (b - Z.of_nat (length s)) with 0 by lia. cbn [Z.to_nat firstn]. f_equal. symmetry. apply skipn_all2. lia.
Qed.
Lemma expand_filled s pos : no_nul s -> in_text s (pos 0%nat) -> (forall i, pos i = (-1, -1) \/ in_text s (pos i)) ->
  forall r l, template r l -> expand s pos r = Some (filled l (hit_of s pos)).
Proof.
  intros HN H0 HG r l HT. induction HT as [|c r l Hc HT IH|r l HT IH|n r l Hn HT IH|r l HT IH|r l HT IH|r l HT IH|c r l Hc1 Hc2 HT IH];
    cbn [expand filled flat_map item_text].
  - reflexivity.
  - destruct (Z.eqb_spec c 36); [contradiction|]. rewrite IH. reflexivity.
  - change (36 =? 36) with true. cbn [andb Z.leb Z.compare Pos.compare Pos.compare_cont Z.eqb Pos.eqb]. rewrite IH. reflexivity.
  - change (36 =? 36) with true. cbv iota.
    destruct (Z.leb_spec 48 (48 + Z.of_nat n)); [|lia]. destruct (Z.leb_spec (48 + Z.of_nat n) 57); [|lia]. cbn [andb].
    replace (Z.to_nat (48 + Z.of_nat n - 48)) with n by lia.
    rewrite (group_text s pos n) by (destruct (HG n); auto). rewrite IH. reflexivity.
  - change (36 =? 36) with true. change ((48 <=? 38) && (38 <=? 57)) with false. change (38 =? 38) with true. cbv iota.
    rewrite (group_text s pos 0%nat) by auto. rewrite IH. reflexivity.
  - change (36 =? 36) with true. change ((48 <=? 39) && (39 <=? 57)) with false. change (39 =? 38) with false.
    change (39 =? 36) with false. change (39 =? 39) with true. cbv iota.
    rewrite after_text, IH by assumption. reflexivity.
  - change (36 =? 36) with true. change ((48 <=? 96) && (96 <=? 57)) with false. change (96 =? 38) with false.
    change (96 =? 36) with false. change (96 =? 39) with false. change (96 =? 96) with true. cbv iota.
    unfold so. rewrite bytes_at_before by (destruct H0 as (? & ? & ?); lia). rewrite IH. reflexivity.
  - change (36 =? 36) with true. cbv iota. cbn [In] in Hc2.
    assert ((48 <=? c) && (c <=? 57) = false) as ->.
    { destruct (Z.leb_spec 48 c), (Z.leb_spec c 57); auto; lia. }
    destruct (Z.eqb_spec c 38); [lia|]. destruct (Z.eqb_spec c 36); [lia|]. destruct (Z.eqb_spec c 39); [lia|].
    destruct (Z.eqb_spec c 96); [lia|]. rewrite IH. reflexivity.
Qed.
Lemma template_plain r l : template r l -> existsb (Z.eqb 36) r = false -> l = map Lit r.
Proof.
  induction 1 as [|c r l Hc HT IH| | | | | |]; cbn [existsb map]; try discriminate; [reflexivity|].
  intros H. apply orb_false_iff in H. destruct H as [_ H]. f_equal. auto.
Qed.
Lemma filled_plain h r : filled (map Lit r) h = r.
Proof. unfold filled. induction r as [|c r IH]; cbn; [reflexivity|]. now rewrite IH. Qed.
Section R.
Context {St : Type}.

(** ** replace *)
(* the text put in for a hit *)
Lemma replace_text rx nsub glob r l (st : St) : sound rx -> no_nul r -> template r l ->
  forall fuel nb p n off acc pos, rx nb p = Match pos -> no_nul p -> n = Z.of_nat (length p) ->
  replace_loop (S fuel) rx nsub glob (RText r) st nb p n off acc =
  let h := hit_of p pos in
  let acc' := acc ++ hbefore h ++ filled l h in
  if negb glob || (Z.of_nat (length (hafter h)) =? 0) || (snd (pos 0%nat) =? 0) then (st, ROk (acc' ++ hafter h))
  else replace_loop fuel rx nsub glob (RText r) st true (hafter h) (Z.of_nat (length (hafter h))) (off + snd (pos 0%nat)) acc'.
Proof.
  intros HS HR HT fuel nb p n off acc pos HM HN ->. destruct (HS nb p pos HM) as [H0 HG].
  cbn [replace_loop]. rewrite cstr_id, HM by assumption.
  destruct H0 as (A1 & A2 & A3). unfold so, eo. rewrite bytes_at_before by lia.
  assert (LA : Z.of_nat (length p) - snd (pos 0%nat) = Z.of_nat (length (hafter (hit_of p pos)))).
  { unfold hit_of. cbn [hafter]. rewrite skipn_length. lia. }
  assert (CA : cstr (skipn (Z.to_nat (snd (pos 0%nat))) p) = hafter (hit_of p pos)).
  { unfold hit_of. cbn [hafter]. apply cstr_id. now apply no_nul_skip. }
  assert (TX : (if existsb (Z.eqb 36) r then expand p pos r else Some (cstr r)) = Some (filled l (hit_of p pos))).
  { destruct (existsb (Z.eqb 36) r) eqn:E.
    - apply expand_filled; auto. split; auto.
    - rewrite (template_plain r l HT E), filled_plain. now rewrite cstr_id. }
  cbv zeta. rewrite CA, LA. destruct (Z.ltb_spec (Z.of_nat (length p)) (snd (pos 0%nat))); [lia|].
  destruct (existsb (Z.eqb 36) r).
  - rewrite TX. reflexivity.
  - injection TX as ->. reflexivity.
Qed.

Lemma successive_nil rx later nb hs rest : sound rx -> never_empty rx -> successive rx later nb [] hs rest -> hs = [] /\ rest = [].
Proof.
  intros HS HE H. inversion H as [nb' s' E|nb' s' pos hs' rest' E HH]; subst; [auto|].
  destruct (HS _ _ _ E) as [(A1 & A2 & A3) _]. specialize (HE _ _ _ E). cbn in A3. lia.
Qed.
Lemma hit_no_nul s pos : no_nul s -> no_nul (hafter (hit_of s pos)).
Proof. apply no_nul_skip. Qed.
Lemma hit_shorter rx nb s pos : sound rx -> never_empty rx -> rx nb s = Match pos -> (length (hafter (hit_of s pos)) < length s)%nat.
Proof.
  intros HS HE E. destruct (HS _ _ _ E) as [(A1 & A2 & A3) _]. specialize (HE _ _ _ E).
  unfold hit_of. cbn [hafter]. rewrite skipn_length. lia.
Qed.

Lemma replace_all_loop rx nsub r l (st : St) : sound rx -> never_empty rx -> no_nul r -> template r l ->
  forall nb p hs rest, successive rx true nb p hs rest ->
  forall fuel off acc, no_nul p -> (length p < fuel)%nat ->
  replace_loop fuel rx nsub true (RText r) st nb p (Z.of_nat (length p)) off acc =
  (st, ROk (acc ++ flat_map (fun h => hbefore h ++ filled l h) hs ++ rest)).
Proof.
  intros HS HE HR HT nb p hs rest HH. induction HH as [nb p E|nb p pos hs rest E HH IH]; intros fuel off acc HN HF; destruct fuel as [|fuel]; try lia.
  - cbn [replace_loop]. rewrite cstr_id, E by assumption. reflexivity.
  - rewrite (replace_text rx nsub true r l st HS HR HT fuel nb p _ off acc pos E HN eq_refl). cbv zeta. cbn [negb orb].
    pose proof (hit_shorter rx nb p pos HS HE E). pose proof (HE _ _ _ E) as HX. destruct (HS _ _ _ E) as [(A1 & A2 & A3) _].
    destruct (Z.eqb_spec (snd (pos 0%nat)) 0); [lia|]. rewrite orb_false_r.
    destruct (Z.eqb_spec (Z.of_nat (length (hafter (hit_of p pos)))) 0) as [L|L].
    + assert (E0 : hafter (hit_of p pos) = []) by (destruct (hafter (hit_of p pos)); [reflexivity|cbn in L; lia]).
      rewrite E0 in *. destruct (successive_nil _ _ _ _ _ HS HE HH) as [-> ->].
      cbn [flat_map]. rewrite !app_nil_r. reflexivity.
    + rewrite IH by (try apply hit_no_nul; auto; lia). cbn [flat_map]. now rewrite <- !app_assoc.
Qed.

(* existence: every text has its successive matches *)
Lemma successive_exists rx later : sound rx -> never_empty rx -> no_errors rx ->
  forall s nb, exists hs rest, successive rx later nb s hs rest.
Proof.
  intros HS HE HB s. remember (length s) as n eqn:L. revert s L. induction n as [n IH] using lt_wf_ind. intros s L nb.
  destruct (rx nb s) as [| |pos] eqn:E.
  - exists [], s. now constructor.
  - now apply HB in E.
  - pose proof (hit_shorter rx nb s pos HS HE E) as H. destruct (IH (length (hafter (hit_of s pos))) ltac:(lia) _ eq_refl later) as (hs & rest & H').
    exists (hit_of s pos :: hs), rest. econstructor; eauto.
Qed.
Lemma successive_whole rx later nb s hs rest : sound rx -> successive rx later nb s hs rest ->
  s = flat_map (fun h => hbefore h ++ hmatch h) hs ++ rest.
Proof.
  intros HS H. induction H as [nb s E|nb s pos hs rest E H IH]; [reflexivity|]. cbn [flat_map].
  destruct (HS _ _ _ E) as [H0 _]. destruct (hit_parts s pos H0) as (E1 & _). rewrite E1 at 1. rewrite IH.
  rewrite <- !app_assoc. rewrite <- IH. reflexivity.
Qed.

(** With a function *)
Definition clean (f : callback St) : Prop := forall st a b c st' t, f st a b c = (st', Some t) -> no_nul t.
Lemma groups_text s pos nsub : no_nul s -> (forall i, pos i = (-1, -1) \/ in_text s (pos i)) -> (nsub <= 252)%nat ->
  groups s pos nsub = map (hgroup (hit_of s pos)) (seq 1 nsub).
Proof.
  intros HN HG Hn. unfold groups. replace (Nat.min nsub (MAX_SUBREGEX - 4)) with nsub by (unfold MAX_SUBREGEX; lia).
  apply map_ext. intros i. unfold hit_of, so, eo. cbn [hgroup]. destruct (Z.ltb_spec (fst (pos i)) 0); [reflexivity|].
  destruct (HG i) as [E|H']; [rewrite E in *; cbn in *; lia|]. now rewrite substr_dup_slice.
Qed.
Lemma replace_fun_loop rx nsub f : sound rx -> never_empty rx -> clean f -> (nsub <= 252)%nat ->
  forall nb p hs rest, successive rx true nb p hs rest ->
  forall (st : St) fuel off acc, no_nul p -> (length p < fuel)%nat ->
  replace_loop fuel rx nsub true (RFun f) st nb p (Z.of_nat (length p)) off acc =
  match calls f nsub st off hs rest with (st', Some t) => (st', ROk (acc ++ t)) | (st', None) => (st', RErr) end.
Proof.
  intros HS HE HC Hn nb p hs rest HH. induction HH as [nb p E|nb p pos hs rest E HH IH]; intros st fuel off acc HN HF; destruct fuel as [|fuel]; try lia.
  - cbn [replace_loop calls]. rewrite cstr_id, E by assumption. reflexivity.
  - pose proof (hit_shorter rx nb p pos HS HE E) as HL. pose proof (HE _ _ _ E) as HX. destruct (HS _ _ _ E) as [H0 HG].
    destruct (hit_parts p pos H0) as (_ & L1 & L2). pose proof H0 as (A1 & A2 & A3).
    cbn [replace_loop]. rewrite cstr_id, E by assumption. unfold so, eo. rewrite bytes_at_before by lia.
    destruct (Z.leb_spec (snd (pos 0%nat)) 0); [lia|]. rewrite andb_false_r.
    rewrite (substr_dup_slice p (pos 0%nat) HN H0). rewrite (groups_text p pos nsub HN HG Hn).
    cbn [calls]. rewrite L1. change (hmatch (hit_of p pos)) with (slice p (pos 0%nat)).
    destruct (f st (slice p (pos 0%nat)) (map (hgroup (hit_of p pos)) (seq 1 nsub)) (off + fst (pos 0%nat))) as [st' [t|]] eqn:EF; [|reflexivity].
    rewrite (cstr_id t) by (eapply HC; eauto).
    destruct (Z.ltb_spec (Z.of_nat (length p)) (snd (pos 0%nat))); [lia|]. cbn [negb orb].
    destruct (Z.eqb_spec (snd (pos 0%nat)) 0); [lia|]. rewrite orb_false_r.
    assert (LA : Z.of_nat (length p) - snd (pos 0%nat) = Z.of_nat (length (hafter (hit_of p pos)))).
    { unfold hit_of. cbn [hafter]. rewrite skipn_length. lia. }
    rewrite LA. change (skipn (Z.to_nat (snd (pos 0%nat))) p) with (hafter (hit_of p pos)).
    change (slice p (0, fst (pos 0%nat))) with (hbefore (hit_of p pos)).
    assert (EO : off + Z.of_nat (length (hbefore (hit_of p pos)) + length (slice p (pos 0%nat))) = off + snd (pos 0%nat)).
    { change (slice p (pos 0%nat)) with (hmatch (hit_of p pos)). lia. }
    rewrite EO.
    destruct (Z.eqb_spec (Z.of_nat (length (hafter (hit_of p pos)))) 0) as [L|L].
    + assert (E0 : hafter (hit_of p pos) = []) by (destruct (hafter (hit_of p pos)); [reflexivity|cbn in L; lia]).
      rewrite E0 in *. destruct (successive_nil _ _ _ _ _ HS HE HH) as [-> ->].
      cbn [calls cstr]. rewrite !app_nil_r. reflexivity.
    + rewrite IH by (try apply hit_no_nul; auto; lia).
      destruct (calls f nsub st' (off + snd (pos 0%nat)) hs rest) as [st'' [t'|]]; [now rewrite <- !app_assoc|reflexivity].
Qed.

(** Any expression that the library finds in bounds: the loop ends and stays in bounds. *)
Lemma bytes_at_some p a n : 0 <= a <= Z.of_nat (length p) -> a + n <= Z.of_nat (length p) -> exists t, bytes_at p a n = Some t.
Proof.
  intros H1 H2. unfold bytes_at. destruct (Z.ltb_spec a 0); [lia|]. destruct (Z.ltb_spec (Z.of_nat (length p)) a); [lia|].
  cbn [orb]. destruct (n <? 0); [eauto|]. destruct (Z.ltb_spec (Z.of_nat (length p)) (a + n)); [lia|]. eauto.
Qed.
Lemma expand_some p pos : in_text (cstr p) (pos 0%nat) -> (forall i, pos i = (-1, -1) \/ in_text (cstr p) (pos i)) ->
  forall k r, (length r <= k)%nat -> exists t, expand p pos r = Some t.
Proof.
  intros (A1 & A2 & A3) HG. pose proof (cstr_le p) as CL.
  assert (GR : forall i (k : option (list Z)), (exists t, k = Some t) -> exists t,
    (if negb (so pos i =? -1) && negb (eo pos i =? -1) then
     match bytes_at p (so pos i) (eo pos i - so pos i), k with Some a, Some b => Some (a ++ b) | _, _ => None end else k) = Some t).
  { intros i k (t & ->). unfold so, eo. destruct (HG i) as [E|(B1 & B2 & B3)].
    - rewrite E. cbn. eauto.
    - destruct (bytes_at_some p (fst (pos i)) (snd (pos i) - fst (pos i)) ltac:(lia) ltac:(lia)) as (x & ->).
      destruct (negb _ && negb _); eauto. }
  induction k as [|k IH]; intros r Hr; destruct r as [|c r]; cbn [length] in Hr; try lia; cbn [expand]; eauto.
  destruct (c =? 36); [|destruct (IH r ltac:(lia)) as (t & ->); cbn; eauto].
  destruct r as [|d r]; [eauto|]. cbn [length] in Hr. destruct (IH r ltac:(lia)) as (t & ->).
  destruct ((48 <=? d) && (d <=? 57)); [exact (GR (Z.to_nat (d - 48)) (Some t) (ex_intro _ t eq_refl))|].
  destruct (d =? 38); [exact (GR 0%nat (Some t) (ex_intro _ t eq_refl))|]. destruct (d =? 36); [cbn; eauto|].
  destruct (d =? 39).
  { destruct (bytes_at_some p (eo pos 0) (eo pos 0 - Z.of_nat (length (cstr p)))) as (x & ->); unfold eo; try lia. eauto. }
  destruct (d =? 96).
  { destruct (bytes_at_some p 0 (so pos 0)) as (x & ->); unfold so; try lia. eauto. }
  cbn. eauto.
Qed.
Lemma replace_loop_safe rx nsub glob rep : sound rx ->
  forall fuel (st : St) nb p n off acc, (length p < fuel)%nat ->
  snd (replace_loop fuel rx nsub glob rep st nb p n off acc) <> RFuel /\ snd (replace_loop fuel rx nsub glob rep st nb p n off acc) <> ROut.
Proof.
  intros HS. induction fuel as [|fuel IH]; intros st nb p n off acc HF; [lia|]. cbn [replace_loop].
  destruct (rx nb (cstr p)) as [| |pos] eqn:E; cbn [snd]; try (split; discriminate).
  destruct (HS _ _ _ E) as [H0 HG]. pose proof H0 as (A1 & A2 & A3). pose proof (cstr_le p) as CL.
  destruct (bytes_at_some p 0 (so pos 0)) as (u & ->); unfold so in *; try lia.
  assert (NX : forall (st' : St) t,
    let next := (if Z.of_nat (length p) <? eo pos 0 then (st', ROut)
      else if negb glob || (n - eo pos 0 =? 0) || (eo pos 0 =? 0) then (st', ROk ((acc ++ u ++ t) ++ cstr (skipn (Z.to_nat (eo pos 0)) p)))
      else replace_loop fuel rx nsub glob rep st' true (skipn (Z.to_nat (eo pos 0)) p) (n - eo pos 0) (off + eo pos 0) (acc ++ u ++ t)) in
    snd next <> RFuel /\ snd next <> ROut).
  { intros st' t next. unfold next, eo in *. destruct (Z.ltb_spec (Z.of_nat (length p)) (snd (pos 0%nat))); [lia|].
    destruct (Z.eqb_spec (snd (pos 0%nat)) 0); [rewrite !orb_true_r; cbn [snd]; split; discriminate|].
    destruct (negb glob || (n - snd (pos 0%nat) =? 0) || false); [cbn [snd]; split; discriminate|].
    apply IH. rewrite skipn_length. lia. }
  destruct rep as [r|f].
  - destruct (existsb (Z.eqb 36) r); [|apply NX].
    destruct (expand_some p pos H0 HG (length r) r ltac:(lia)) as (t & ->). apply NX.
  - destruct (_ && _); [cbn [snd]; split; discriminate|].
    match goal with |- context [f ?a ?b ?c ?d] => destruct (f a b c d) as [st' [t|]] end; [apply NX|cbn [snd]; split; discriminate].
Qed.
End R.
