(** * Typed calls (C76); call, apply and bind (C77) *)
From Coq Require Import ZArith List Bool Lia.
Import ListNotations.
Require Import Verif.CodecSpec Verif.SafeProps Verif.StrModel Verif.StrSpec Verif.StrProofs Verif.StrProps Verif.CallModel Verif.CallSpec Verif.CallProofs.
Local Open Scope Z_scope.

(** ** C76 *)
Definition fits_types (c : cfg) (f : func) (h : heap) (args : list nat) : Prop :=
  number_fits f (length args) /\
  forall i p a, nth_error (params f) i = Some p -> nth_error args i = Some a -> admits (noundef c) (types p) (get h a).
Definition valid (h : heap) (args : list nat) : Prop := Forall (fun a => (a < length h)%nat) args.

Lemma shared_args_spec c f h args : no_check c = false -> no_error c = false -> valid h args ->
  let '(c', rc, h', cells) := shared_args c f h args in (rc = true <-> fits_types c f h args) /\ (rc = true -> c' = c) /\ bound f h args h' cells.
Proof.
  intros N E V. unfold shared_args. pose proof (call_check_spec c f (length args) N E) as CC. destruct (call_check c f (length args)) as [c1 n]. destruct CC as (C1 & C2 & N1 & E1).
  pose proof (share_spec (params f) c1 true 0 h args N1 E1 ltac:(lia) V) as SP. destruct (share c1 true 0 h (params f) args) as [[[c2 rc] h2] cells]. destruct SP as (A1 & A2 & A3 & A4 & A5 & A6).
  split; [|split; [|repeat split; assumption]].
  - unfold fits_types. destruct n; cbn [andb].
    + rewrite (C2 eq_refl) in *. split; [intros R; apply A1 in R as [_ R]; split; [tauto|exact R]|]. intros [_ R]. apply A1. auto.
    + split; [discriminate|]. intros [R _]. apply C1 in R. discriminate.
  - intros R. apply andb_prop in R as [-> R]. rewrite (A2 R). auto.
Qed.
(** A call whose arguments fit runs the body once, on parameters that hold the arguments and defaults, and gives what the
    body gives, if the return type allows it. *)
Theorem typed_call c h f this args : no_check c = false -> no_error c = false -> valid h args -> fits_types c f h args ->
  exists h1 cells, bound f h args h1 cells /\
    let '(c', h', r) := call_sub false c h f this args in
    h' = fst (body f this cells args h1) /\
    forall v, r = Some v <-> snd (body f this cells args h1) = Some v /\ (noreturn c = true \/ may_return (rtype f) v).
Proof.
  intros N E V F. pose proof (shared_args_spec c f h args N E V) as SP. unfold call_sub. destruct (shared_args c f h args) as [[[c1 rc] h1] cells].
  destruct SP as (A1 & A2 & A3). exists h1, cells. split; [exact A3|]. rewrite (proj2 A1 F). rewrite (A2 (proj2 A1 F)) in *.
  destruct (body f this cells args h1) as [h2 [v|]]; cbn [fst snd]; [|split; [reflexivity|]; intros v; split; [discriminate|intros [X _]; discriminate]]. cbn [negb andb].
  destruct (Z.eqb_spec (mask (rtype f)) 0) as [M|M]; cbn [negb andb].
  - split; [reflexivity|]. assert (rtype f = []) by (apply mask_zero; lia). intros v'. split; [intros X; split; [exact X|]; right; left; assumption|tauto].
  - destruct (noreturn c) eqn:NR; cbn [negb].
    + split; [reflexivity|]. intros v'. tauto.
    + pose proof (check_return c (rtype f) v N E M) as CR. destruct (arg_type_check c (mask (rtype f)) v 0 false) as [c2 ok]. split; [reflexivity|]. intros v'. destruct ok.
      * split; [intros X; split; [exact X|]; right; injection X as <-; tauto|tauto].
      * split; [discriminate|]. intros [X [Y|Y]]; [discriminate|]. injection X as <-. apply CR in Y. discriminate.
Qed.
(** A call whose arguments do not fit is an error; the body does not run and no value changes. *)
Theorem refused_call c h f this args : no_check c = false -> no_error c = false -> valid h args -> ~ fits_types c f h args ->
  exists c' new, forall body' cons, call_sub cons c h (mkF (params f) (varargs f) (rtype f) body') this args = (c', h ++ new, None).
Proof.
  intros N E V F. pose proof (shared_args_spec c f h args N E V) as SP. unfold call_sub.
  destruct (shared_args c f h args) as [[[c1 rc] h1] cells] eqn:SE. destruct SP as (A1 & A2 & A3). assert (rc = false) by (destruct rc; [exfalso; tauto|reflexivity]). subst rc.
  destruct A3 as (_ & (new & ->) & _). exists c1, new. intros body' cons. unfold shared_args in *. cbn [params varargs]. change (call_check c (mkF (params f) (varargs f) (rtype f) body')) with (call_check c f). rewrite SE.
  reflexivity.
Qed.
(** new f(...): the returned value is not checked. *)
Theorem typed_new c h f this args : no_check c = false -> no_error c = false -> valid h args -> fits_types c f h args ->
  exists h1 cells, bound f h args h1 cells /\ call_sub true c h f this args = (c, fst (body f this cells args h1), snd (body f this cells args h1)).
Proof.
  intros N E V F. pose proof (shared_args_spec c f h args N E V) as SP. unfold call_sub. destruct (shared_args c f h args) as [[[c1 rc] h1] cells].
  destruct SP as (A1 & A2 & A3). exists h1, cells. split; [exact A3|]. rewrite (proj2 A1 F). rewrite (A2 (proj2 A1 F)) in *.
  destruct (body f this cells args h1) as [h2 [v|]]; reflexivity.
Qed.
(** With noCheck or noError set every call runs the body, on the same parameters. *)
Lemma share_indep ps : forall c rc i c' rc' i' h args, snd (fst (share c rc i h ps args)) = snd (fst (share c' rc' i' h ps args)) /\ snd (share c rc i h ps args) = snd (share c' rc' i' h ps args).
Proof.
  induction ps as [|p ps IH]; intros c rc i c' rc' i' h args; [split; reflexivity|]. rewrite !share_cons.
  destruct (match args with [] => match pd p with Some d => if rc then arg_type_check c (ptype p) (dvalue d) (i + 1) true else (c, rc) | None => (c, rc) end | a :: _ => _ end) as [c1 rc1].
  destruct (match args with [] => match pd p with Some d => if rc' then _ else (c', rc') | None => (c', rc') end | a :: _ => _ end) as [c1' rc1'].
  destruct (match args with [] => match pd p with Some d => alloc h (dvalue d) | None => alloc h undefined end | a :: _ => (h, a) end) as [h1 cell].
  pose proof (IH c1 rc1 (i + 1) c1' rc1' (i' + 1) h1 (tl args)) as H.
  destruct (share c1 rc1 (i + 1) h1 ps (tl args)) as [[[c2 rc2] h2] cells], (share c1' rc1' (i' + 1) h1 ps (tl args)) as [[[c3 rc3] h3] cells']. cbn [fst snd] in *. destruct H as [-> ->]. auto.
Qed.
Lemma check_lax c t v i d : no_check c = true \/ no_error c = true -> let (c', ok) := arg_type_check c t v i d in ok = true /\ (no_check c' = true \/ no_error c' = true).
Proof.
  intros H. pose proof (check_keeps c t v i d) as K. destruct (arg_type_check c t v i d) as [c' ok] eqn:E. destruct K as [K1 K2]. rewrite K1, K2. split; [|exact H].
  unfold arg_type_check, mismatch in E. destruct (no_check c); [congruence|]. destruct H as [H|H]; [discriminate|]. rewrite H in E.
  repeat match type of E with context [if ?b then _ else _] => destruct b end; congruence.
Qed.
Lemma share_lax ps : forall c i h args, no_check c = true \/ no_error c = true -> let '(c', rc, h', cells) := share c true i h ps args in rc = true /\ (no_check c' = true \/ no_error c' = true).
Proof.
  induction ps as [|p ps IH]; intros c i h args H; [cbn [share]; auto|]. rewrite share_cons.
  set (ck := match args, pd p with
             | a :: _, _ => arg_type_check c (ptype p) (get h a) (i + 1) false
             | [], Some d => arg_type_check c (ptype p) (dvalue d) (i + 1) true
             | [], None => (c, true) end).
  assert (CK : let (c1, rc1) := ck in rc1 = true /\ (no_check c1 = true \/ no_error c1 = true)).
  { unfold ck. destruct args; [destruct (pd p)|]; [now apply check_lax|auto|now apply check_lax]. }
  destruct ck as [c1 rc1]. destruct CK as [-> CK].
  destruct (match args with [] => match pd p with Some d => alloc h (dvalue d) | None => alloc h undefined end | a :: _ => (h, a) end) as [h1 cell].
  specialize (IH c1 (i + 1) h1 (tl args) CK). destruct (share c1 true (i + 1) h1 ps (tl args)) as [[[c2 rc2] h2] cells]. exact IH.
Qed.
Theorem unchecked_call cons c h f this args : no_check c = true \/ no_error c = true -> valid h args ->
  exists h1 cells, bound f h args h1 cells /\ let '(c', h', r) := call_sub cons c h f this args in h' = fst (body f this cells args h1) /\ r = snd (body f this cells args h1).
Proof.
  intros H V. unfold call_sub, shared_args.
  assert (CC : let (c1, n) := call_check c f (length args) in n = true /\ (no_check c1 = true \/ no_error c1 = true)).
  { unfold call_check, mismatch. destruct (no_check c) eqn:N; [auto|]. destruct H as [H|H]; [discriminate|]. pose proof (mismatch_keeps c) as [_ M]. rewrite H in M.
    destruct (varargs f); [destruct (_ <=? _)%nat|destruct (_ || _)]; rewrite ?H; auto. }
  destruct (call_check c f (length args)) as [c1 n]. destruct CC as [-> CC]. pose proof (share_lax (params f) c1 0 h args CC) as SL.
  pose proof (share_spec (params f) (mkC false false false false 0 0) true 0 h args eq_refl eq_refl ltac:(lia) V) as SP.
  pose proof (share_indep (params f) c1 true 0 (mkC false false false false 0 0) true 0 h args) as SI.
  destruct (share c1 true 0 h (params f) args) as [[[c2 rc] h2] cells], (share (mkC false false false false 0 0) true 0 h (params f) args) as [[[c3 rc3] h3] cells3]. cbn [fst snd] in SI. destruct SI as [<- <-].
  destruct SP as (_ & _ & A3 & A4 & A5 & A6). destruct SL as [-> SL]. exists h2, cells. split; [repeat split; assumption|]. cbn [andb].
  destruct (body f this cells args h2) as [h4 [v|]]; [|auto]. destruct (_ && _); [|auto].
  pose proof (check_lax c2 (mask (rtype f)) v 0 false SL) as CL. destruct (arg_type_check c2 (mask (rtype f)) v 0 false) as [c5 ok]. destruct CL as [-> _]. auto.
Qed.
(** Departure: the checks are not disabled after typeWarnMax mismatches, as the option says; noundef and noreturn are. *)
Theorem warn_max_refuted : ~ forall c h f this args, no_check c = false -> no_error c = false -> valid h args -> 0 < warn_max c <= count c ->
  exists h1 cells, snd (call_sub true c h f this args) = snd (body f this cells args h1).
Proof.
  intros H. specialize (H (mkC false false false false 50 50) [mkV KStr 1] (mkF [mkP [Tnumber] None] false [] (fun _ _ _ h => (h, Some undefined))) undefined [0%nat] eq_refl eq_refl).
  destruct H as (h1 & cells & H); [repeat constructor|cbn; lia|]. vm_compute in H. discriminate.
Qed.
Theorem noundef_lost : forall c h f this args, no_check c = false -> no_error c = false -> valid h args -> ~ fits_types c f h args -> 0 < warn_max c <= count c + 1 ->
  noundef (fst (fst (call_sub false c h f this args))) = false.
Proof.
  intros c h f this args N E V F W. assert (L : forall c, 0 < warn_max c <= count c + 1 -> let c' := type_mismatch c in noundef c' = false /\ warn_max c' = warn_max c /\ count c' = count c + 1).
  { clear. intros c W. unfold type_mismatch. destruct (Z.leb_spec (warn_max c) 0); [lia|]. destruct (Z.leb_spec (warn_max c) (count c + 1)); [|lia]. auto. }
  assert (LA : forall c t v i d, 0 < warn_max c <= count c + 1 -> let (c', ok) := arg_type_check c t v i d in (c' = c \/ c' = type_mismatch c) /\ (ok = false -> c' = type_mismatch c)).
  { clear. intros c t v i d W. unfold arg_type_check, mismatch. repeat match goal with |- context [if ?b then _ else _] => destruct b end; split; auto; discriminate. }
  assert (LS : forall ps c rc i h args, 0 < warn_max c <= count c + 1 -> let '(c', rc', _, _) := share c rc i h ps args in (rc = true -> rc' = false -> noundef c' = false) /\ (noundef c = false -> noundef c' = false)).
  { clear - L LA. induction ps as [|p ps IH]; intros c rc i h args W; [cbn [share]; split; congruence|]. rewrite share_cons.
    set (ck := match args, pd p with
               | a :: _, _ => if rc then arg_type_check c (ptype p) (get h a) (i + 1) false else (c, rc)
               | [], Some d => if rc then arg_type_check c (ptype p) (dvalue d) (i + 1) true else (c, rc)
               | [], None => (c, rc) end).
    assert (CK : let (c1, rc1) := ck in (c1 = c \/ c1 = type_mismatch c) /\ (rc = true -> rc1 = false -> c1 = type_mismatch c)).
    { unfold ck. destruct args as [|a args]; [destruct (pd p) as [d|]|].
      - destruct rc; [|split; [auto|discriminate]]. pose proof (LA c (ptype p) (dvalue d) (i + 1) true W) as X. destruct (arg_type_check _ _ _ _ _). tauto.
      - split; [auto|congruence].
      - destruct rc; [|split; [auto|discriminate]]. pose proof (LA c (ptype p) (get h a) (i + 1) false W) as X. destruct (arg_type_check _ _ _ _ _). tauto. }
    destruct ck as [c1 rc1]. destruct CK as [C1 C2]. destruct (L c W) as (L1 & L2 & L3).
    destruct (match args with [] => match pd p with Some d => alloc h (dvalue d) | None => alloc h undefined end | a :: _ => (h, a) end) as [h1 cell].
    assert (W1 : 0 < warn_max c1 <= count c1 + 1) by (destruct C1 as [->| ->]; lia). specialize (IH c1 rc1 (i + 1) h1 (tl args) W1).
    destruct (share c1 rc1 (i + 1) h1 ps (tl args)) as [[[c2 rc2] h2] cells]. destruct IH as [IH1 IH2]. split.
    - intros R R2. destruct rc1; [now apply IH1|]. apply IH2. rewrite (C2 R eq_refl). exact L1.
    - intros X. apply IH2. destruct C1 as [-> | ->]; [exact X|exact L1]. }
  pose proof (shared_args_spec c f h args N E V) as SP. unfold call_sub. destruct (shared_args c f h args) as [[[c1 rc] h1] cells] eqn:SE. destruct SP as (A1 & _).
  assert (rc = false) by (destruct rc; [exfalso; tauto|reflexivity]). subst rc. cbn [fst]. unfold shared_args in SE.
  assert (CC : let (c2, n) := call_check c f (length args) in (c2 = c \/ c2 = type_mismatch c) /\ (n = false -> c2 = type_mismatch c)).
  { unfold call_check, mismatch. repeat match goal with |- context [if ?b then _ else _] => destruct b end; split; auto; discriminate. }
  destruct (call_check c f (length args)) as [c2 n]. destruct CC as [C1 C2]. destruct (L c W) as (L1 & L2 & L3).
  assert (W2 : 0 < warn_max c2 <= count c2 + 1) by (destruct C1 as [->| ->]; lia). specialize (LS (params f) c2 true 0 h args W2).
  destruct (share c2 true 0 h (params f) args) as [[[c3 rc3] h3] cells3]. injection SE as -> RR -> ->. destruct LS as [S1 S2]. destruct rc3.
  - apply S2. rewrite andb_true_r in RR. rewrite (C2 RR). exact L1.
  - now apply S1.
Qed.
(** Types as text: what is written in the header of a function of the application is read back as the types listed. *)
Lemma name_ok t : strbytes (name_of t) /\ ~ In pipe (name_of t) /\ name_of t <> [].
Proof. destruct t; cbn; (split; [|split; [intros X; unfold pipe in X; cbn in X; repeat (destruct X as [X|X]; [lia|]); exact X|discriminate]]); repeat constructor; lia. Qed.
Lemma get1_name t : type_get1 (name_of t) = bit t.
Proof. destruct t; reflexivity. Qed.
Lemma joined_mem c l : (1 < length l)%nat -> In c (joined [c] l).
Proof. destruct l as [|a [|b l]]; cbn [length]; try lia. intros _. rewrite joined_cons by discriminate. apply in_or_app. right. left. reflexivity. Qed.
Lemma fold_bits l : forall m, fold_left (fun m x => Z.lor m (type_get1 x)) (map name_of l) m = fold_left (fun m t => Z.lor m (bit t)) l m.
Proof. induction l as [|t l IH]; intros m; [reflexivity|]. cbn [map fold_left]. now rewrite get1_name, IH. Qed.
Theorem type_text l : l <> [] -> type_get (joined [pipe] (map name_of l)) = Done (mask l).
Proof.
  intros NE. unfold type_get. destruct (existsb (Z.eqb pipe) (joined [pipe] (map name_of l))) eqn:X.
  - destruct (split_gives_pieces (joined [pipe] (map name_of l)) [pipe]) as (l' & S1 & S2); [|discriminate|].
    + apply joined_strbytes; [unfold pipe; lia|]. apply Forall_map, Forall_forall. intros t _. apply name_ok.
    + assert (l' = map name_of l) as ->.
      { apply (cut_unique [pipe] ltac:(discriminate) (joined [pipe] (map name_of l))); [exact S2|]. apply joined_cut; [destruct l; [contradiction|discriminate]|].
        apply Forall_map, Forall_forall. intros t _. apply name_ok. }
      rewrite S1. f_equal. apply fold_bits.
  - destruct l as [|t [|u l]]; [contradiction| |].
    + cbn [map joined]. rewrite get1_name. unfold mask. cbn [fold_left]. reflexivity.
    + assert (Y : existsb (Z.eqb pipe) (joined [pipe] (map name_of (t :: u :: l))) = true); [|congruence].
      apply existsb_exists. exists pipe. split; [|apply Z.eqb_refl]. apply joined_mem. cbn. lia.
Qed.
(** ... and the types of a parameter, shown as text, are the same types when read: Tany stands for itself, no type is shown as any. *)
Lemma names_joined typ l : forall i, 0 <= i ->
  append_names typ i l = (if i =? 0 then [] else match filter (has_bit typ) l with [] => [] | _ => [pipe] end) ++ joined [pipe] (map name_of (filter (has_bit typ) l)).
Proof.
  induction l as [|t l IH]; intros i Hi; cbn [append_names filter]; [destruct (i =? 0); reflexivity|].
  destruct (has_bit typ t); [|apply IH; lia]. rewrite IH by lia. destruct (Z.eqb_spec (i + 1) 0); [lia|]. cbn [map].
  destruct (filter (has_bit typ) l) as [|u r]; [cbn [map joined]; rewrite ?app_nil_r; destruct (i =? 0); reflexivity|].
  cbn [map]. rewrite (joined_cons [pipe] (name_of t) (name_of u :: map name_of r)) by discriminate. destruct (i =? 0); cbn [app]; rewrite <- ?app_assoc; reflexivity.
Qed.
Definition show_ok (m : Z) : bool := negb (Z.land m 2048 =? 0) || (mask (filter (has_bit m) order) =? m).
Lemma show_all : forall z, 0 <= z < 8192 -> show_ok z = true.
Proof.
  assert (F : forallb (fun n => show_ok (Z.of_nat n)) (seq 0 (Z.to_nat 8192)) = true) by (vm_compute; reflexivity).
  intros z H. rewrite forallb_forall in F. specialize (F (Z.to_nat z)). rewrite Z2Nat.id in F by lia. apply F. apply in_seq. lia.
Qed.
Lemma mask_range l : forall m, 0 <= m < 8192 -> 0 <= fold_left (fun m t => Z.lor m (bit t)) l m < 8192.
Proof.
  induction l as [|t l IH]; intros m H; [exact H|]. cbn [fold_left]. apply IH.
  assert (B : 0 <= bit t < 8192) by (destruct t; cbn; lia). split; [apply Z.lor_nonneg; lia|].
  change 8192 with (2 ^ 13) in *. destruct (Z.eq_dec (Z.lor m (bit t)) 0) as [->|]; [lia|].
  assert (0 <= Z.lor m (bit t)) by (apply Z.lor_nonneg; lia).
  apply Z.log2_lt_pow2; [lia|]. rewrite Z.log2_lor by lia. apply Z.max_lub_lt; [destruct (Z.eq_dec m 0) as [->|]|destruct (Z.eq_dec (bit t) 0) as [->|]]; try (cbn; lia); apply Z.log2_lt_pow2; lia.
Qed.
Theorem type_shown l : l <> [] -> ~ In Tany l -> type_get (type_name (mask l)) = Done (mask l).
Proof.
  intros NE NA. unfold type_name.
  assert (HA : has_bit (mask l) Tany = false) by (destruct (has_bit (mask l) Tany) eqn:X; [apply has_bit_mask in X; contradiction|reflexivity]).
  pose proof (mask_range l 0 ltac:(lia)) as R. fold (mask l) in R.
  assert (NZ : mask l <> 0) by (intros X; apply NE, mask_zero; lia).
  destruct (Z.leb_spec (mask l) 0); [lia|]. rewrite HA. cbn [orb]. rewrite names_joined by lia. cbn [app Z.eqb].
  pose proof (show_all (mask l) R) as S1. unfold show_ok in S1.
  unfold has_bit in HA. change (bit Tany) with 2048 in HA. rewrite HA in S1. cbn [orb] in S1. apply Z.eqb_eq in S1.
  rewrite type_text; [congruence|]. intros X. rewrite X in S1. cbn in S1. congruence.
Qed.
Theorem type_shown_any l : In Tany l \/ l = [] -> type_name (mask l) = name_of Tany.
Proof. intros [H| ->]; [|reflexivity]. unfold type_name. apply has_bit_mask in H. rewrite H. now rewrite orb_true_r. Qed.

(** ** C77 *)
(** What a call does, apart from which bound functions have been called. *)
Definition outcome (x : world * option value) : cfg * heap * option value := (wc (fst x), wh (fst x), snd x).
Lemma outcome_script w w' f this args : wc w = wc w' -> wh w = wh w' -> outcome (func_call w (FScript f) this args) = outcome (func_call w' (FScript f) this args).
Proof. intros E1 E2. unfold outcome. cbn [func_call]. rewrite E1, E2. destruct (call_sub false (wc w') (wh w') f this args) as [[c h] r]. reflexivity. Qed.
(** f.call(t, a...), f.apply(t, [a...]) and the method call t.f(a...) do the same; t is made an object; for null and undefined it is the
    top object. *)
Theorem call_as_method : forall to_object top w f t a,
  let this := if is_undef (get (wh w) t) || is_null (get (wh w) t) then top else get (wh w) t in
  outcome (fn_call to_object top w (FScript f) (t :: a)) = outcome (direct top w (FScript f) (Some (to_object this)) a).
Proof. intros. unfold fn_call, direct, call_this, this. cbn [link tl]. destruct (_ || _); reflexivity. Qed.
Theorem apply_as_call : forall to_object top w f t arr a,
  outcome (fn_apply to_object top w (FScript f) (t :: arr) (Some (Some a))) = outcome (fn_call to_object top w (FScript f) (t :: a)).
Proof. intros. reflexivity. Qed.
Theorem apply_no_array : forall to_object top w f t arr,
  outcome (fn_apply to_object top w (FScript f) (t :: arr) None) = outcome (fn_call to_object top w (FScript f) [t]) /\
  outcome (fn_apply to_object top w (FScript f) [] None) = outcome (fn_call to_object top w (FScript f) []).
Proof. intros. split; reflexivity. Qed.
Theorem apply_not_array : forall to_object top w g args, fn_apply to_object top w g args (Some None) = (w, None).
Proof. reflexivity. Qed.
(** A function made by bind, called directly, is the function itself with the bound this, or, if that is null, with that of
    the call, on the bound arguments and then those of the call.  This is for every state, so for every call. *)
Theorem bind_call : forall top w id f t b this a,
  let this' := if is_null (get (wh w) t) then this else Some (get (wh w) t) in
  outcome (direct top w (FBound id (FScript f) (t :: b)) this a) = outcome (direct top w (FScript f) this' (b ++ a)).
Proof.
  intros. unfold direct. cbn [link]. cbn [func_call linked existsb]. rewrite Nat.eqb_refl. cbn [orb tl wh].
  unfold this', outcome. cbn [wc wh]. destruct (is_null (get (wh w) t)); destruct (call_sub _ _ _ _ _ _) as [[c h] r]; reflexivity.
Qed.
Theorem bind_nothing : forall top w id f this a, outcome (direct top w (FBound id (FScript f) []) this a) = outcome (direct top w (FScript f) this a).
Proof. intros. unfold direct. cbn [link func_call linked existsb]. rewrite Nat.eqb_refl. cbn [orb tl app wc wh]. unfold outcome. destruct (call_sub _ _ _ _ _ _) as [[c h] r]; reflexivity. Qed.
(** Bound functions of bound functions, when each has been called before: the innermost this that is not null, the arguments
    bound first come first. *)
Fixpoint target (g : fval) : func := match g with FScript f => f | FBound _ g _ => target g end.
Fixpoint makers (g : fval) : list nat := match g with FScript _ => [] | FBound id g _ => id :: makers g end.
Fixpoint first_args (g : fval) : list nat := match g with FScript _ => [] | FBound _ g b => first_args g ++ tl b end.
Fixpoint last_this (h : heap) (g : fval) (this : value) : value :=
  match g with
  | FScript _ => this
  | FBound _ g b => last_this h g (match b with t :: _ => if is_null (get h t) then this else get h t | [] => this end)
  end.
Theorem bind_chain : forall g w this a, incl (makers g) (linked w) -> func_call w g this a = func_call w (FScript (target g)) (last_this (wh w) g this) (first_args g ++ a).
Proof.
  induction g as [f|id g IH b]; intros w this a H; [reflexivity|]. cbn [func_call makers target first_args last_this].
  assert (existsb (Nat.eqb id) (linked w) = true) as -> by (apply existsb_exists; exists id; split; [apply H; left; reflexivity|apply Nat.eqb_refl]).
  rewrite <- app_assoc. apply IH. intros x X. apply H. right. exact X.
Qed.
(** Once a bound function has been called directly or with call, it can be used in any way. *)
Lemma linked_grows g : forall w this a, incl (linked w) (linked (fst (func_call w g this a))).
Proof.
  induction g as [f|id g IH b]; intros w this a; cbn [func_call].
  - destruct (call_sub false (wc w) (wh w) f this a) as [[c h] r]. cbn. apply incl_refl.
  - destruct (existsb _ _); [apply IH|apply incl_refl].
Qed.
Theorem called_once top w id g b this a : In id (linked (fst (direct top w (FBound id g b) this a))).
Proof. unfold direct. apply linked_grows. cbn [link linked]. left. reflexivity. Qed.
(** Departures.  A function just made by bind cannot be used with apply, given to a builtin or bound again: bind failure. *)
Theorem bind_fresh_refuted : forall to_object top w id g b this a second, ~ In id (linked w) ->
  invoke w (FBound id g b) this a = (w, None) /\ fn_apply to_object top w (FBound id g b) a second = (w, None) /\
  forall id' b' this', id' <> id -> snd (direct top w (FBound id' (FBound id g b) b') this' a) = None.
Proof.
  intros to_object top w id g b this a second N.
  assert (X : forall l, ~ In id l -> existsb (Nat.eqb id) l = false).
  { intros l L. destruct (existsb (Nat.eqb id) l) eqn:E; [|reflexivity]. apply existsb_exists in E as (y & Y1 & Y2). apply Nat.eqb_eq in Y2. subst. contradiction. }
  unfold invoke, fn_apply. cbn [func_call]. rewrite (X _ N). split; [reflexivity|]. split; [destruct second as [[l|]|]; reflexivity|].
  intros id' b' this' D. unfold direct. cbn [link func_call linked existsb]. rewrite Nat.eqb_refl. cbn [orb].
  rewrite (X (linked w) N). destruct (Nat.eqb_spec id id'); [congruence|reflexivity].
Qed.
(** bind(null, ...) keeps the this of the call; bind(undefined) does not: the function sees undefined, not the top object. *)
Theorem bind_undefined_refuted : ~ forall top w id f t b a, is_undef (get (wh w) t) = true ->
  outcome (direct top w (FBound id (FScript f) (t :: b)) None a) = outcome (direct top w (FScript f) None (b ++ a)).
Proof.
  intros H. specialize (H (mkV KObject 7) (mkW (mkC false false false false 50 0) [undefined] []) 0%nat (mkF [] false [] (fun this _ _ h => (h, Some this))) 0%nat [] [] eq_refl).
  vm_compute in H. discriminate.
Qed.
(** The arguments of a bound function are kept as long as the functions called change no value that was there before. *)
Definition tidy (f : func) : Prop := forall this cells args h i, (i < length h)%nat -> get (fst (body f this cells args h)) i = get h i.
Theorem tidy_call w f this a : valid (wh w) a -> no_check (wc w) = false -> no_error (wc w) = false -> tidy f ->
  forall i, (i < length (wh w))%nat -> get (wh (fst (func_call w (FScript f) this a))) i = get (wh w) i.
Proof.
  intros V N E T i Hi. cbn [func_call]. pose proof (shared_args_spec (wc w) f (wh w) a N E V) as SP. unfold call_sub.
  destruct (shared_args (wc w) f (wh w) a) as [[[c1 rc] h1] cells]. destruct SP as (_ & _ & _ & (new & ->) & _).
  assert (G : forall j, (j < length (wh w))%nat -> get (wh w ++ new) j = get (wh w) j) by (intros; now apply get_app).
  destruct rc; [|cbn; now apply G]. pose proof (T this cells a (wh w ++ new) i) as T1. destruct (body f this cells a (wh w ++ new)) as [h2 r].
  assert (X : get h2 i = get (wh w) i) by (rewrite <- (G i Hi); apply T1; rewrite app_length; lia).
  destruct r as [v|]; [|exact X]. destruct (_ && _); [destruct (arg_type_check _ _ _ _ _) as [c2 ok]|]; exact X.
Qed.
(** Departure: assigning to a parameter changes the bound argument, so that two calls that should be the same differ, and the
    elements of an array given to apply. *)
Definition count_up : func := mkF [mkP [] None] false [] (fun _ cells _ h => match cells with
  | [c] => (firstn c h ++ [mkV KNum (vid (get h c) + 1)] ++ skipn (S c) h, Some (get h c)) | _ => (h, None) end).
Theorem bound_argument_refuted : exists w r1 r2, let g := FBound 0 (FScript count_up) [0; 1]%nat in
  snd (direct undefined w g None []) = Some r1 /\ snd (direct undefined (fst (direct undefined w g None [])) g None []) = Some r2 /\ r1 <> r2.
Proof.
  exists (mkW (mkC false false false false 50 0) [mkV KNull 0; mkV KNum 5] []), (mkV KNum 5), (mkV KNum 6).
  split; [vm_compute; reflexivity|]. split; [vm_compute; reflexivity|discriminate].
Qed.
Theorem apply_array_refuted : exists w l, get (wh (fst (fn_apply (fun v => v) undefined w (FScript count_up) [0; 1]%nat (Some (Some l))))) 2 <> get (wh w) 2 /\ l = [2]%nat.
Proof. exists (mkW (mkC false false false false 50 0) [mkV KNull 0; mkV KArray 1; mkV KNum 5] []), [2]%nat. split; [vm_compute; discriminate|reflexivity]. Qed.

(** ** Cases *)
(** function (x:number, y:string|null='d', z=undefined):number|void. *)
Definition f1 : func := mkF [mkP [Tnumber] None; mkP [Tstring; Tnull] (Some (DStr 1)); mkP [] (Some DUndef)] false [Tnumber; Tvoid]
  (fun this cells args h => (h, Some (get h (nth 1 cells 0%nat)))).
Definition c1 : cfg := mkC false false false false 50 0.
Definition h1 : heap := [mkV KNum 3; mkV KStr 4; mkV KNull 0; undefined].
Example ex_fits : valid h1 [0; 1]%nat /\ fits_types c1 f1 h1 [0; 1]%nat.
Proof.
  split; [repeat constructor|]. split; [split; [cbn; lia|right; cbn; lia]|]. intros i p a Hp Ha. destruct i as [|[|i]]; cbn in Hp, Ha.
  - injection Hp as <-. injection Ha as <-. split; [discriminate|]. right. right. exists Tnumber. split; [left; reflexivity|]. cbn. tauto.
  - injection Hp as <-. injection Ha as <-. split; [discriminate|]. right. right. exists Tstring. split; [left; reflexivity|]. cbn. tauto.
  - destruct i; discriminate.
Qed.
Example ex_return : snd (call_sub false c1 h1 f1 undefined [0; 1]%nat) = None /\ snd (call_sub true c1 h1 f1 undefined [0; 1]%nat) = Some (mkV KStr 4).
Proof. split; vm_compute; reflexivity. Qed.
Example ex_default : call_sub true c1 h1 f1 undefined [0]%nat = (c1, h1 ++ [mkV KStr 1; undefined], Some (mkV KStr 1)).
Proof. vm_compute. reflexivity. Qed.
Example ex_refused : ~ fits_types c1 f1 h1 [1]%nat /\ ~ fits_types c1 f1 h1 [] /\ ~ fits_types c1 f1 h1 [0; 3]%nat /\ ~ fits_types c1 f1 h1 [0; 1; 3; 3]%nat.
Proof.
  assert (R : forall args, valid h1 args -> snd (call_sub true c1 h1 f1 undefined args) = None -> ~ fits_types c1 f1 h1 args).
  { intros args V X F. destruct (typed_new c1 h1 f1 undefined args eq_refl eq_refl V F) as (h2 & cells & _ & Y). rewrite Y in X. discriminate. }
  repeat split; apply R; try (vm_compute; reflexivity); repeat constructor.
Qed.
From Coq Require Import String.
Example ex_text : type_get (tx "string|null") = Done (mask [Tstring; Tnull]) /\ type_name (mask [Tnull; Tstring]) = tx "string|null".
Proof. split; vm_compute; reflexivity. Qed.
Example ex_bind : snd (direct undefined (mkW c1 h1 []) (FBound 0 (FScript f1) [2; 0]%nat) None [2]%nat) = None /\
  snd (direct undefined (mkW (mkC false false false true 50 0) h1 []) (FBound 0 (FScript f1) [2; 0]%nat) None [1]%nat) = Some (mkV KStr 4).
Proof. split; vm_compute; reflexivity. Qed.
