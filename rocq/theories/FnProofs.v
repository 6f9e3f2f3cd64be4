(** * The operations of the model agree with those of the specification *)
Require Import ZArith List Bool Lia.
Import ListNotations.
Require Import Verif.FnModel Verif.FnSpec.
Local Open Scope nat_scope.

Section Ops.
Context {PS : psys}.
Notation V := (value (prim PS)).
Notation vundef := (VPrim (undef PS)).
Notation mem := (@mem PS).

Lemma upd_split {A} (l : list A) i v :
  upd l i v = if i <? length l then firstn i l ++ v :: skipn (S i) l else l.
Proof.
  revert i; induction l as [|a l IH]; intros [|i]; cbn [upd length firstn skipn app]; try reflexivity.
  rewrite IH. change (S i <? S (length l)) with (i <? length l). destruct (i <? length l); reflexivity.
Qed.
Lemma upd_length {A} (l : list A) i v : length (upd l i v) = length l.
Proof. revert i; induction l as [|a l IH]; intros [|i]; cbn [upd length]; auto. Qed.
Lemma nth_upd {A} (l : list A) i j v d :
  nth j (upd l i v) d = if (j =? i) && (i <? length l) then v else nth j l d.
Proof.
  revert i j; induction l as [|a l IH]; intros [|i] [|j]; cbn [upd nth length]; try reflexivity.
  - now rewrite andb_false_r.
  - rewrite IH. reflexivity.
Qed.
Lemma upd_upd {A} (l : list A) i v w : upd (upd l i v) i w = upd l i w.
Proof. revert i; induction l as [|a l IH]; intros [|i]; cbn [upd]; congruence. Qed.
Lemma nth_error_nth_def {A} (l : list A) i d :
  match nth_error l i with Some v => v | None => d end = nth i l d.
Proof. revert i; induction l as [|a l IH]; intros [|i]; cbn; auto. Qed.

Lemma readc_cell (m : mem) c : readc m c = cell m c.
Proof. apply nth_error_nth_def. Qed.
Lemma writec_set (m : mem) c v : writec m c v = set_cell m c v.
Proof. unfold writec, set_cell. now rewrite upd_split. Qed.
Lemma obj_at_get (m : mem) a : match obj_at m a with Some o => o | None => mkobj [] None None end = getobj m a.
Proof. apply nth_error_nth_def. Qed.
Lemma obj_at_some (m : mem) a o : obj_at m a = Some o -> getobj m a = o /\ a < length (objs m).
Proof.
  intros H. split; [rewrite <- obj_at_get, H; reflexivity|].
  apply nth_error_Some. unfold obj_at in H. congruence.
Qed.
Lemma obj_at_none (m : mem) a : obj_at m a = None -> getobj m a = mkobj [] None None /\ length (objs m) <= a.
Proof.
  intros H. split; [rewrite <- obj_at_get, H; reflexivity|]. now apply nth_error_None.
Qed.

Lemma assoc_binding k ps : assoc k ps = binding k ps.
Proof.
  induction ps as [|[k' c] r IH]; cbn; [reflexivity|]. rewrite Nat.eqb_sym, IH. reflexivity.
Qed.
(* each key of a list of properties occurs once: every list built by [put] *)
Fixpoint keys_once (ps : list (name * nat)) : Prop :=
  match ps with [] => True | (k, _) :: r => binding k r = None /\ keys_once r end.
Lemma binding_none_map k kc ps :
  binding k ps = None -> map (fun p : name * nat => if fst p =? k then kc else p) ps = ps.
Proof.
  induction ps as [|[k' c] r IH]; cbn; [reflexivity|]. intros H. destruct (k' =? k); [discriminate|]. now rewrite IH.
Qed.
Lemma put_none k c ps : binding k ps = None -> put k c ps = ps ++ [(k, c)].
Proof.
  induction ps as [|[k' c'] r IH]; cbn; [reflexivity|]. intros H. rewrite Nat.eqb_sym.
  destruct (k' =? k); [discriminate|]. now rewrite IH.
Qed.
Lemma put_rebind k c ps : keys_once ps -> put k c ps = rebind ps (k, c).
Proof.
  unfold rebind. cbn [fst]. induction ps as [|[k' c'] r IH]; cbn; [reflexivity|].
  intros [H1 H2]. rewrite (Nat.eqb_sym k k'). destruct (Nat.eqb_spec k' k) as [->|Hn].
  - f_equal. now rewrite binding_none_map.
  - rewrite IH by assumption. destruct (binding k r); reflexivity.
Qed.
Lemma binding_put k k' c ps : binding k (put k' c ps) = if k' =? k then Some c else binding k ps.
Proof.
  induction ps as [|[k1 c1] r IH]; cbn; [reflexivity|].
  destruct (Nat.eqb_spec k' k1) as [->|Hn]; cbn.
  - destruct (k1 =? k); reflexivity.
  - rewrite IH. destruct (Nat.eqb_spec k1 k) as [->|]; [|reflexivity].
    destruct (Nat.eqb_spec k' k); [congruence|reflexivity].
Qed.
Lemma keys_once_put k c ps : keys_once ps -> keys_once (put k c ps).
Proof.
  induction ps as [|[k1 c1] r IH]; cbn; [auto|]. intros [H1 H2].
  destruct (Nat.eqb_spec k k1) as [->|Hn]; cbn; [auto|].
  rewrite binding_put. destruct (Nat.eqb_spec k k1); [congruence|]. auto.
Qed.

(* memory in which each object has each key once *)
Definition mem_ok (m : mem) : Prop := Forall (fun o : obj => keys_once (props o)) (objs m).

Lemma own_own_cell (m : mem) a k : own m a k = own_cell m a k.
Proof.
  unfold own, own_cell. rewrite assoc_binding. destruct (obj_at m a) as [o|] eqn:E.
  - apply obj_at_some in E. destruct E as [-> _]. reflexivity.
  - apply obj_at_none in E. destruct E as [-> _]. reflexivity.
Qed.
Lemma keys_once_getobj (m : mem) a : mem_ok m -> keys_once (props (getobj m a)).
Proof.
  intros H. unfold getobj. destruct (Nat.lt_ge_cases a (length (objs m))) as [Hl|Hl].
  - eapply (proj1 (Forall_forall _ _) H). now apply nth_In.
  - rewrite nth_overflow by assumption. exact I.
Qed.
Lemma set_prop_insert (m : mem) a k v : mem_ok m ->
  set_prop m a k v = insert (snd (new_cell m v)) a k (length (cells m)).
Proof.
  intros Hok. unfold set_prop, insert, new_cell. cbn [snd cells objs]. rewrite upd_split.
  destruct (obj_at m a) as [o|] eqn:E.
  - apply obj_at_some in E. destruct E as [E Hl].
    apply Nat.ltb_lt in Hl. rewrite Hl. unfold getobj. cbn [objs]. fold (getobj m a).
    rewrite put_rebind by now apply keys_once_getobj. now rewrite E.
  - apply obj_at_none in E. destruct E as [_ Hl]. apply Nat.ltb_ge in Hl. rewrite Hl. reflexivity.
Qed.
Lemma Forall_upd {A} (P : A -> Prop) l i v : Forall P l -> P v -> Forall P (upd l i v).
Proof.
  intros H Hv. revert i; induction H as [|a l Ha H IH]; intros [|i]; cbn; auto.
Qed.
Lemma mem_ok_insert (m : mem) a k c : mem_ok m -> mem_ok (insert m a k c).
Proof.
  intros H. unfold mem_ok, insert. cbn [objs]. apply Forall_upd; [assumption|].
  cbn [props]. apply keys_once_put. now apply keys_once_getobj.
Qed.
Lemma mem_ok_new_cell (m : mem) v : mem_ok m -> mem_ok (snd (new_cell m v)).
Proof. auto. Qed.
Lemma mem_ok_cells (m : mem) c : mem_ok m -> mem_ok (mkmem c (objs m)).
Proof. auto. Qed.
Lemma mem_ok_add_obj (m : mem) o : mem_ok m -> keys_once (props o) -> mem_ok (add_obj m o).
Proof. intros H Ho. unfold mem_ok, add_obj. cbn [objs]. apply Forall_app. auto. Qed.
Lemma mem_ok_set_prop (m : mem) a k v : mem_ok m -> mem_ok (set_prop m a k v).
Proof. intros H. rewrite set_prop_insert by assumption. now apply mem_ok_insert. Qed.
Lemma mem_ok_mem0 : mem_ok mem0.
Proof. unfold mem_ok, mem0. cbn. repeat constructor. Qed.

(** ** Lookups *)
Lemma lookup_chain n (m : mem) a k : lookup n m a k = first_with m k (chain (S n) m a).
Proof.
  revert a; induction n as [|n IH]; intros a.
  - cbn. rewrite own_own_cell. destruct (own_cell m a k); [reflexivity|].
    destruct (obj_at m a) as [o|]; [destruct (proto o)|]; reflexivity.
  - cbn [lookup]. change (chain (S (S n)) m a) with
      (a :: match obj_at m a with Some o => match proto o with Some p => chain (S n) m p | None => [] end | None => [] end).
    cbn [first_with]. rewrite own_own_cell. destruct (own_cell m a k); [reflexivity|].
    rewrite <- obj_at_get. destruct (obj_at m a) as [o|]; [|reflexivity].
    destruct (proto o) as [p|]; [apply IH|reflexivity].
Qed.
Lemma get_prop_get (m : mem) a k :
  match get_prop m a k with Some c => cell m c | None => vundef end = get m a k.
Proof.
  unfold get_prop, get. rewrite lookup_chain. destruct (first_with m k _); [now rewrite readc_cell|reflexivity].
Qed.
Lemma on_chain_chain n (m : mem) a p : on_chain n m (Some a) p = existsb (Nat.eqb p) (chain n m a).
Proof.
  revert a; induction n as [|n IH]; intros a; [reflexivity|]. cbn [on_chain chain existsb].
  rewrite (Nat.eqb_sym p a). destruct (a =? p); [reflexivity|]. cbn [orb].
  rewrite <- obj_at_get. destruct (obj_at m a) as [o|].
  - destruct (proto o) as [q|]; [apply IH|]. destruct n; reflexivity.
  - cbn. destruct n; reflexivity.
Qed.
Lemma instance_of_inst (m : mem) v f : instance_of m v f = inst m v f.
Proof.
  unfold instance_of, inst. destruct v as [p|a], f as [q|b]; try reflexivity.
  rewrite <- (obj_at_get m b). rewrite own_own_cell.
  destruct (obj_at m b) as [[pr po [fo|]]|]; cbn [fn]; try reflexivity.
  destruct (own_cell m b prototype) as [c|]; [|reflexivity].
  rewrite <- readc_cell. destruct (readc m c) as [q|q]; [reflexivity|].
  change (tl (chain (S (S (length (objs m)))) m a)) with
    (match obj_at m a with Some o => match proto o with Some p => chain (S (length (objs m))) m p | None => [] end | None => [] end).
  rewrite <- (obj_at_get m a). destruct (obj_at m a) as [o|]; [|reflexivity].
  destruct (proto o) as [p|]; [apply on_chain_chain|reflexivity].
Qed.
Lemma find_var_first (m : mem) ch x : find_var m ch x = first_with m x ch.
Proof. induction ch as [|a r IH]; cbn; [reflexivity|]. now rewrite own_own_cell, IH. Qed.

Lemma last_env cur scope : last (cur :: rev scope) 0 = hd cur scope.
Proof.
  destruct scope as [|a r]; [reflexivity|]. cbn [rev hd].
  change (cur :: rev r ++ [a]) with ((cur :: rev r) ++ [a]). apply last_last.
Qed.
Lemma push_var_resolve (m : mem) scope cur x : mem_ok m ->
  push_var m scope cur x = resolve m (cur :: rev scope) x.
Proof.
  intros H. unfold push_var, resolve. cbn [first_with]. rewrite own_own_cell.
  destruct (own_cell m cur x); [reflexivity|]. rewrite find_var_first.
  destruct (first_with m x (rev scope)); [reflexivity|].
  rewrite set_prop_insert by assumption. rewrite last_env. reflexivity.
Qed.

Lemma upd_app_last {A} (l : list A) a b v : upd (l ++ a :: b) (length l) v = l ++ v :: b.
Proof. induction l as [|c l IH]; cbn; congruence. Qed.
Lemma push_func_closure (m : mem) scope cur f :
  push_func m scope cur f = closure m (cur :: rev scope) f.
Proof.
  unfold push_func, closure, new_obj, new_cell, insert, getobj. cbn [cells objs rev].
  rewrite rev_involutive. rewrite <- app_assoc. cbn [app]. rewrite app_length. cbn [length].
  rewrite Nat.add_1_r. rewrite upd_app_last. rewrite app_nth2, Nat.sub_diag by lia.
  cbn [nth props proto fn put]. reflexivity.
Qed.
Lemma to_object_receiver (m : mem) v : to_object m v = receiver m v.
Proof. destruct v as [p|a]; [|reflexivity]. cbn. destruct (wrapper PS p); reflexivity. Qed.
Lemma subscript_member (m : mem) v k : subscript m v k = member m v k.
Proof.
  destruct v as [p|a]; cbn [subscript member].
  - destruct (wrapper PS p); [|reflexivity]. now rewrite get_prop_get.
  - now rewrite get_prop_get.
Qed.
Lemma assign_mem_set (m : mem) o k v : mem_ok m -> assign_mem m o k v = set_member m o k v.
Proof.
  intros H. destruct o as [p|a]; [reflexivity|]. cbn [assign_mem set_member].
  destruct (k =? prototype); [reflexivity|]. rewrite set_prop_insert by assumption. reflexivity.
Qed.
Lemma put_items_fold (m : mem) a kvs : mem_ok m ->
  put_items m a kvs = fold_left (fun mm kv => set_prop mm a (fst kv) (snd kv)) kvs m.
Proof.
  revert m; induction kvs as [|[k v] r IH]; intros m H; [reflexivity|].
  cbn [put_items fold_left fst snd]. cbn [new_cell]. rewrite set_prop_insert by assumption.
  apply IH. apply mem_ok_insert. apply mem_ok_new_cell, H.
Qed.
Lemma make_object_literal (m : mem) kvs : mem_ok m -> make_object m kvs = literal m kvs.
Proof.
  intros H. unfold make_object, literal, new_obj. f_equal. apply put_items_fold.
  apply mem_ok_add_obj; [assumption|exact I].
Qed.

(** ** Declarations *)
Lemma once_ext s1 s2 xs : (forall y, existsb (Nat.eqb y) s1 = existsb (Nat.eqb y) s2) -> once s1 xs = once s2 xs.
Proof.
  revert s1 s2; induction xs as [|x r IH]; intros s1 s2 H; [reflexivity|]. cbn [once].
  rewrite H. destruct (existsb (Nat.eqb x) s2); [now apply IH|]. f_equal. apply IH.
  intros y. cbn. now rewrite H.
Qed.
Lemma fold_add_var xs acc : fold_left add_var xs acc = acc ++ once acc xs.
Proof.
  revert acc; induction xs as [|x r IH]; intros acc; cbn [fold_left once]; [now rewrite app_nil_r|].
  unfold add_var at 2. destruct (existsb (Nat.eqb x) acc) eqn:E; [apply IH|].
  rewrite IH, <- app_assoc. cbn [app]. f_equal. f_equal. apply once_ext.
  intros y. rewrite existsb_app. cbn. now rewrite orb_false_r, orb_comm.
Qed.

Scheme expr_mut := Induction for expr Sort Prop
  with exprs_mut := Induction for exprs Sort Prop
  with items_mut := Induction for items Sort Prop
  with stmt_mut := Induction for stmt Sort Prop
  with fundef_mut := Induction for fundef Sort Prop.
Combined Scheme fn_mut from expr_mut, exprs_mut, items_mut, stmt_mut, fundef_mut.

Lemma decl_fold :
  (forall (e : @expr PS) xs, decl_e e xs = fold_left add_var (decls_e e) xs) /\
  (forall (s : @stmt PS) xs, decl_s s xs = fold_left add_var (decls_s s) xs).
Proof.
  assert (A : forall e : @expr PS, forall xs, decl_e e xs = fold_left add_var (decls_e e) xs).
  { apply (expr_mut PS (fun e => forall xs, decl_e e xs = fold_left add_var (decls_e e) xs)
      (fun es => forall xs, decl_es es xs = fold_left add_var (decls_es es) xs)
      (fun is => forall xs, decl_is is xs = fold_left add_var (decls_is is) xs)
      (fun s => forall xs, decl_s s xs = fold_left add_var (decls_s s) xs)
      (fun f => forall xs, decl_f f xs = fold_left add_var (decls_f f) xs));
    try (intros; cbn [decl_e decl_es decl_is decl_s decl_f decls_e decls_es decls_is decls_s decls_f]; rewrite ?fold_left_app; cbn [fold_left];
         repeat match goal with H : forall xs : list name, @?Q xs |- _ => rewrite H; clear H end; reflexivity).
    intros arr ps b IH xs; destruct arr; [apply IH|reflexivity]. }
  split; [exact A|].
  apply (stmt_mut PS (fun e => forall xs, decl_e e xs = fold_left add_var (decls_e e) xs)
      (fun es => forall xs, decl_es es xs = fold_left add_var (decls_es es) xs)
      (fun is => forall xs, decl_is is xs = fold_left add_var (decls_is is) xs)
      (fun s => forall xs, decl_s s xs = fold_left add_var (decls_s s) xs)
      (fun f => forall xs, decl_f f xs = fold_left add_var (decls_f f) xs));
    try (intros; cbn [decl_e decl_es decl_is decl_s decl_f decls_e decls_es decls_is decls_s decls_f]; rewrite ?fold_left_app; cbn [fold_left];
         repeat match goal with H : forall xs : list name, @?Q xs |- _ => rewrite H; clear H end; reflexivity).
  intros arr ps b IH xs; destruct arr; [apply IH|reflexivity].
Qed.
Lemma locals_fun_locals (f : @fundef PS) : locals f = fun_locals f.
Proof.
  destruct f as [[|] ps b]; [reflexivity|]. cbn [locals fun_locals].
  rewrite (proj2 decl_fold), fold_add_var. reflexivity.
Qed.

(** ** Entering a function *)
Lemma new_cells_add (m : mem) vs : new_cells m vs = (seq (length (cells m)) (length vs), add_cells m vs).
Proof.
  revert m; induction vs as [|v r IH]; intros m; cbn [new_cells length seq].
  - unfold add_cells. rewrite app_nil_r. destruct m; reflexivity.
  - cbn [new_cell]. rewrite IH. unfold add_cells. cbn [cells objs].
    rewrite app_length. cbn [length]. rewrite Nat.add_1_r, <- app_assoc. reflexivity.
Qed.

Lemma bind_params_eq ps (m : mem) a b q :
  a < length (objs m) -> keys_once (props (getobj m a)) -> (q < length ps -> b + q = length (cells m)) ->
  bind_params m a ps (seq b q) =
  mkmem (cells m ++ repeat vundef (length ps - q))
        (upd (objs m) a (mkobj (fold_left rebind (combine ps (seq b (length ps))) (props (getobj m a)))
                               (proto (getobj m a)) (fn (getobj m a)))).
Proof.
  revert m b q; induction ps as [|x ps IH]; intros m b q Ha Hk Hq.
  - cbn. rewrite app_nil_r. destruct m as [cs os]. cbn in *. f_equal.
    unfold getobj. cbn [objs]. clear -Ha. revert a Ha; induction os as [|o os IH]; intros [|a] Ha; cbn in *;
      try lia; [now destruct o|]. f_equal. apply IH. lia.
  - assert (G : forall (m1 : mem) c, objs m1 = objs m ->
       getobj (insert m1 a x c) a = mkobj (put x c (props (getobj m a))) (proto (getobj m a)) (fn (getobj m a))).
    { intros m1 c E. unfold insert, getobj. cbn [objs]. rewrite E, nth_upd, Nat.eqb_refl.
      apply Nat.ltb_lt in Ha. rewrite Ha. reflexivity. }
    destruct q as [|q]; cbn [seq bind_params].
    + cbn [new_cell]. change (@nil nat) with (seq (S b) 0). rewrite IH.
      * rewrite G by reflexivity. cbn [insert cells objs props proto fn].
        rewrite upd_upd, <- app_assoc. cbn [length Nat.sub repeat app combine seq fold_left]. rewrite Nat.sub_0_r.
        rewrite put_rebind by assumption. cbn [length] in Hq. rewrite Nat.add_0_r in Hq. rewrite <- Hq by lia. reflexivity.
      * unfold insert. cbn [objs]. now rewrite upd_length.
      * rewrite G by reflexivity. cbn [props]. now apply keys_once_put.
      * intros _. cbn. rewrite app_length. cbn. cbn [length] in Hq. rewrite <- Hq by lia. lia.
    + rewrite IH.
      * rewrite G by reflexivity. cbn [insert cells objs props proto fn].
        rewrite upd_upd. cbn [length Nat.sub combine seq fold_left].
        rewrite put_rebind by assumption. reflexivity.
      * unfold insert. cbn [objs]. now rewrite upd_length.
      * rewrite G by reflexivity. cbn [props]. now apply keys_once_put.
      * intros Hl. cbn. cbn [length] in Hq. rewrite <- Hq by lia. lia.
Qed.

Lemma bind_locals_fold (m : mem) a xs : mem_ok m ->
  bind_locals m a xs = fold_left (fun mm x => set_prop mm a x vundef) xs m.
Proof.
  revert m; induction xs as [|x r IH]; intros m H; [reflexivity|].
  cbn [bind_locals fold_left new_cell]. rewrite set_prop_insert by assumption.
  apply IH, mem_ok_insert, mem_ok_new_cell, H.
Qed.
Lemma mem_ok_fold {A} (g : A -> name * V) a (xs : list A) (m : mem) : mem_ok m ->
  mem_ok (fold_left (fun mm x => set_prop mm a (fst (g x)) (snd (g x))) xs m).
Proof. revert m; induction xs as [|x r IH]; intros m H; [exact H|]. cbn. apply IH, mem_ok_set_prop, H. Qed.

Lemma keys_once_rebind ps kc : keys_once ps -> keys_once (rebind ps kc).
Proof. intros H. destruct kc as [k c]. rewrite <- put_rebind by assumption. now apply keys_once_put. Qed.
Lemma keys_once_fold l ps : keys_once ps -> keys_once (fold_left rebind l ps).
Proof. revert ps; induction l as [|a l IH]; intros ps H; [exact H|]. cbn. apply IH, keys_once_rebind, H. Qed.

Lemma with_params_ok (m : mem) base sa f vs : mem_ok m -> mem_ok (with_params m base sa f vs).
Proof.
  intros H. unfold with_params, mem_ok. cbn [objs add_cells]. apply Forall_app. split; [|constructor].
  - apply Forall_forall. intros x Hx. apply (proj1 (Forall_forall _ _) H). rewrite <- (firstn_skipn sa). apply in_or_app. auto.
  - cbn [props]. now apply keys_once_fold.
  - apply Forall_forall. intros x Hx. apply (proj1 (Forall_forall _ _) H). rewrite <- (firstn_skipn (S sa)). apply in_or_app. auto.
Qed.
Lemma with_locals_ok (m : mem) sa f : mem_ok m -> mem_ok (with_locals m sa f).
Proof. intros H. unfold with_locals. apply (mem_ok_fold (fun x => (x, vundef)) sa). exact H. Qed.

Lemma bind_params_with (m : mem) base sa f vs :
  sa < length (objs m) -> getobj m sa = mkobj [] None None -> base + length vs = length (cells m) ->
  bind_params m sa (params f) (seq base (length vs)) = with_params m base sa f vs.
Proof.
  intros Ha Hg Hb. rewrite bind_params_eq; [|assumption|now rewrite Hg|auto].
  unfold with_params. cbn [add_cells cells objs]. rewrite Hg. cbn [props proto fn]. f_equal.
  rewrite upd_split. apply Nat.ltb_lt in Ha. now rewrite Ha.
Qed.
End Ops.
