(** Model of the red-black tree of /repo/src/jsiTree.c.

    A C node with its [parent] chain is represented by a zipper: the subtree
    below the node and the list of frames (innermost first) above it.  A frame
    says on which side of the parent the hole is and carries the parent's
    colour, its payload and its other subtree.  Parent pointers are thus kept
    consistent by construction (simplification: a rotation that forgot to
    update a [parent] field is not expressible).  Dereferencing NULL and failing
    an [Assert] are the outcome [None].

    Note on orientation (jsiTree.c:377-381): the search goes LEFT when the
    node's key compares less than the wanted one, so left subtrees hold the
    larger keys. *)
From Coq Require Import ZArith List Bool Lia.
Import ListNotations.
Local Open Scope Z_scope.

(** jsiTree.c:10 *)
Inductive color := Red | Black.

Definition color_eqb (a b : color) : bool :=
  match a, b with Red, Red => true | Black, Black => true | _, _ => false end.

(** The key types whose deletion differs, jsiTree.c:597-625
    (JSI_KEYS_STRING; JSI_KEYS_STRINGKEY and JSI_KEYS_ONEWORD; struct keys). *)
Inductive keytype := KString | KWord | KStruct.

Section Tree.
Context {K V : Type}.
(** The comparison procedure compareTreeProc(treePtr, key1, key2),
    jsiTree.c:256-279: negative, zero or positive. *)
Variable cmp : K -> K -> Z.

(** Jsi_TreeEntry (jsi.h): [eptr] is the identity (address) of the malloc'ed
    entry, so that pointer stability can be stated. *)
Record entry := mkEntry { eptr : nat; ekey : K; eval : V }.

Inductive tree := E | T (c : color) (l : tree) (e : entry) (r : tree).

(** Side of the parent on which the hole is. *)
Inductive side := LeftOf | RightOf.

Record frame := mkFrame { fside : side; fcol : color; fent : entry; foth : tree }.

Definition ctx := list frame.

(** Put a subtree back under a frame / under a chain of frames. *)
Definition fill (f : frame) (t : tree) : tree :=
  match fside f with
  | LeftOf  => T (fcol f) t (fent f) (foth f)
  | RightOf => T (fcol f) (foth f) (fent f) t
  end.

Fixpoint plug (c : ctx) (t : tree) : tree :=
  match c with
  | [] => t
  | f :: c' => plug c' (fill f t)
  end.

(** node_color, jsiTree.c:35-37 *)
Definition node_color (t : tree) : color :=
  match t with E => Black | T c _ _ _ => c end.

(** set_color, jsiTree.c:39-42: painting NULL black is a no-op, painting NULL red
    dereferences NULL. *)
Definition set_color (t : tree) (c : color) : option tree :=
  match t with
  | T _ l e r => Some (T c l e r)
  | E => match c with Black => Some E | Red => None end
  end.

(** rotate_left, jsiTree.c:59-70 (the subtree at n is replaced by the returned one) *)
Definition rotate_left (n : tree) : option tree :=
  match n with
  | T nc nl ne (T rc rl re rr) => Some (T rc (T nc nl ne rl) re rr)
  | _ => None
  end.

(** rotate_right, jsiTree.c:72-83 *)
Definition rotate_right (n : tree) : option tree :=
  match n with
  | T nc (T lc ll le lr) ne nr => Some (T lc ll le (T nc lr ne nr))
  | _ => None
  end.

Definition obind {A B} (o : option A) (f : A -> option B) : option B :=
  match o with Some a => f a | None => None end.

(** insert_case5, jsiTree.c:85-95: n is under p on side [fside p], p is under g.
    p black, g red, rotate g; the side tested is n's side below p. *)
Definition insert_case5 (n : tree) (p g : frame) : option tree :=
  let p' := mkFrame (fside p) Black (fent p) (foth p) in
  let g' := mkFrame (fside g) Red (fent g) (foth g) in
  match fside p with
  | LeftOf  => rotate_right (fill g' (fill p' n))
  | RightOf => rotate_left  (fill g' (fill p' n))
  end.

(** insert_case4, jsiTree.c:97-107: straighten the path if n is an inner grandchild *)
Definition insert_case4 (n : tree) (p g : frame) : option tree :=
  match fside p, fside g with
  | RightOf, LeftOf =>
      (* rotate_left(p): n takes p's place, p becomes n's left child, the new n *)
      obind (rotate_left (fill p n)) (fun t =>
      match t with
      | T c l e r => insert_case5 l (mkFrame LeftOf c e r) g
      | E => None
      end)
  | LeftOf, RightOf =>
      obind (rotate_right (fill p n)) (fun t =>
      match t with
      | T c l e r => insert_case5 r (mkFrame RightOf c e l) g
      | E => None
      end)
  | _, _ => insert_case5 n p g
  end.

(** insert_case1, 2, 3 (jsiTree.c:111-135), which call each other: returns the new root. *)
Fixpoint insert_case1 (n : tree) (c : ctx) : option tree :=
  match c with
  | [] => set_color n Black                                   (* case1 130-131 *)
  | p :: c1 =>
      if color_eqb (fcol p) Black then Some (plug c n)        (* case2 124-126 *)
      else match c1 with                                      (* case3 111-122 *)
           | [] => None                                       (* uncle(): no grandparent *)
           | g :: c2 =>
               let u := foth g in
               if color_eqb (node_color u) Red then
                 obind (set_color u Black) (fun u' =>
                 let p' := mkFrame (fside p) Black (fent p) (foth p) in
                 let g' := mkFrame (fside g) Red (fent g) u' in
                 insert_case1 (fill g' (fill p' n)) c2)
               else obind (insert_case4 n p g) (fun t => Some (plug c2 t))
           end
  end.

(** The deletion cases move frames around the node n being removed, n itself is
    untouched; so they map the chain above n to the new chain above n.
    [p] is n's parent frame (its [foth] is the sibling), [c] the chain above p. *)

(** delete_case6, jsiTree.c:145-161 *)
Definition delete_case6 (p : frame) (c : ctx) : option ctx :=
  match foth p with
  | T _ sl se sr =>
      (* s takes parent's colour, parent becomes black *)
      match fside p with
      | LeftOf =>
          (* s->right painted black; rotate_left(parent) *)
          obind (set_color sr Black) (fun sr' =>
          Some (mkFrame LeftOf Black (fent p) sl :: mkFrame LeftOf (fcol p) se sr' :: c))
      | RightOf =>
          obind (set_color sl Black) (fun sl' =>
          Some (mkFrame RightOf Black (fent p) sr :: mkFrame RightOf (fcol p) se sl' :: c))
      end
  | E => None
  end.

(** delete_case5, jsiTree.c:163-185 *)
Definition delete_case5 (p : frame) (c : ctx) : option ctx :=
  match foth p with
  | E => None
  | T sc sl se sr =>
      if color_eqb sc Black then
        match fside p with
        | LeftOf =>
            if color_eqb (node_color sr) Black && color_eqb (node_color sl) Red then
              obind (set_color sl Black) (fun sl' =>
              obind (rotate_right (T Red sl' se sr)) (fun s' =>
              delete_case6 (mkFrame LeftOf (fcol p) (fent p) s') c))
            else delete_case6 p c
        | RightOf =>
            if color_eqb (node_color sr) Red && color_eqb (node_color sl) Black then
              obind (set_color sr Black) (fun sr' =>
              obind (rotate_left (T Red sl se sr')) (fun s' =>
              delete_case6 (mkFrame RightOf (fcol p) (fent p) s') c))
            else delete_case6 p c
        end
      else delete_case6 p c
  end.

(** The test shared by cases 3 and 4: sibling and both nephews black.
    A NULL sibling is coloured black and then dereferenced (None). *)
Definition sib_all_black (s : tree) : option bool :=
  match s with
  | E => None
  | T sc sl _ sr =>
      Some (color_eqb sc Black && color_eqb (node_color sl) Black && color_eqb (node_color sr) Black)
  end.

(** delete_case4, jsiTree.c:187-199 *)
Definition delete_case4 (p : frame) (c : ctx) : option ctx :=
  if color_eqb (fcol p) Red then
    obind (sib_all_black (foth p)) (fun b =>
    if b then
      obind (set_color (foth p) Red) (fun s' =>
      Some (mkFrame (fside p) Black (fent p) s' :: c))
    else delete_case5 p c)
  else delete_case5 p c.

(** delete_case1, 2, 3 (jsiTree.c:201-231), which call each other.
    [fuel] bounds the recursion; running out is [None]
    ([Theorem]s show that [delete_fuel] always suffices). *)
Fixpoint delete_case1 (fuel : nat) (c : ctx) {struct fuel} : option ctx :=
  match c with
  | [] => Some []                                                     (* case1 229-231 *)
  | p :: c1 =>
      match fuel with
      | O => None
      | S fuel' =>
          let case3 (p : frame) (c1 : ctx) : option ctx :=            (* 201-213 *)
            if color_eqb (fcol p) Black then
              obind (sib_all_black (foth p)) (fun b =>
              if b then
                obind (set_color (foth p) Red) (fun s' =>
                obind (delete_case1 fuel' c1) (fun c1' =>
                Some (mkFrame (fside p) (fcol p) (fent p) s' :: c1')))
              else delete_case4 p c1)
            else delete_case4 p c1 in
          match foth p with                                           (* case2 215-226 *)
          | T Red sl se sr =>
              match fside p with
              | LeftOf  => case3 (mkFrame LeftOf Red (fent p) sl)
                                 (mkFrame LeftOf Black se sr :: c1)
              | RightOf => case3 (mkFrame RightOf Red (fent p) sr)
                                 (mkFrame RightOf Black se sl :: c1)
              end
          | _ => case3 p c1
          end
      end
  end.

Definition delete_fuel (c : ctx) : nat := S (S (length c)).

(** delete_one_child, jsiTree.c:557-580 (the #if 1 branch): n = T nc nl ne nr at
    chain c.  The new chain's emptiness is C's test [n->parent == NULL]. *)
Definition delete_one_child (nc : color) (nl : tree) (nr : tree) (c : ctx) : option tree :=
  let child := match nr with E => nl | _ => nr end in
  obind (match nc with
         | Black => delete_case1 (delete_fuel c) c
         | Red => Some c
         end) (fun c' =>
  match c' with
  | [] => match child with
          | E => Some E
          | T _ _ _ _ => set_color child Black
          end
  | _ => Some (plug c' child)
  end).

(** maximum_node, jsiTree.c:137-143: descend to the right; returns the node found
    with the frames passed on the way (innermost first). *)
Fixpoint maximum_node (t : tree) (c : ctx) : option (color * tree * entry * tree * ctx) :=
  match t with
  | E => None
  | T tc l e r =>
      match r with
      | E => Some (tc, l, e, r, c)
      | T _ _ _ _ => maximum_node r (mkFrame RightOf tc e l :: c)
      end
  end.

(** Jsi_TreeEntryFind, jsiTree.c:368-386, keeping the chain above the node found *)
Fixpoint find_path (k : K) (t : tree) (c : ctx) : option (color * tree * entry * tree * ctx) :=
  match t with
  | E => None
  | T tc l e r =>
      let rc := cmp (ekey e) k in
      if rc =? 0 then Some (tc, l, e, r, c)
      else if rc <? 0 then find_path k l (mkFrame LeftOf tc e r :: c)
      else find_path k r (mkFrame RightOf tc e l :: c)
  end.

Definition tree_find (k : K) (t : tree) : option entry :=
  match find_path k t [] with Some (_, _, e, _, _) => Some e | None => None end.

(** The descent of Jsi_TreeEntryNew, jsiTree.c:416-437: the chain under which the new
    node is linked; [None] is Assert(0). *)
Fixpoint insert_path (k : K) (t : tree) (c : ctx) : option ctx :=
  match t with
  | E => Some c
  | T tc l e r =>
      let rc := cmp (ekey e) k in
      if rc =? 0 then None
      else if rc <? 0 then insert_path k l (mkFrame LeftOf tc e r :: c)
      else insert_path k r (mkFrame RightOf tc e l :: c)
  end.

(** Jsi_Tree (root, numEntries, epoch; nextptr stands for malloc giving a fresh address). *)
Record rbtree := mkTree { root : tree; numEntries : Z; epoch : Z; nextptr : nat }.

(** Jsi_TreeNew, jsiTree.c:446-488 *)
Definition tree_new : rbtree := mkTree E 0 0 1.

(** Overwrite the value of the entry of key k (Jsi_TreeValueSet on the entry found,
    jsiTree.c:761-770). *)
Definition set_value (k : K) (v : V) (t : tree) : tree :=
  match find_path k t [] with
  | Some (tc, l, e, r, c) => plug c (T tc l (mkEntry (eptr e) (ekey e) v) r)
  | None => t
  end.

(** Jsi_TreeSet, jsiTree.c:800-808 = Jsi_TreeEntryNew 388-444 (createProc 282-355:
    find, else allocate and count) then Jsi_TreeValueSet.  [None]: crash. *)
Definition tree_set (k : K) (v : V) (t : rbtree) : option rbtree :=
  match tree_find k (root t) with
  | Some _ => Some (mkTree (set_value k v (root t)) (numEntries t) (epoch t) (nextptr t))
  | None =>
      obind (insert_path k (root t) []) (fun c =>
      obind (insert_case1 (T Red E (mkEntry (nextptr t) k v) E) c) (fun r' =>
      Some (mkTree r' (numEntries t + 1) (epoch t + 1) (S (nextptr t)))))
  end.

(** Jsi_TreeGet, jsiTree.c:810-816 *)
Definition tree_get (k : K) (t : rbtree) : option V :=
  match tree_find k (root t) with Some e => Some (eval e) | None => None end.

(** Jsi_TreeEntryDelete, jsiTree.c:582-641, on the entry found at (nc,nl,ne,nr) below c.
    Returns the new root and the entry freed. *)
Definition entry_delete (kt : keytype) (nc : color) (nl : tree) (ne : entry) (nr : tree) (c : ctx)
  : option (tree * entry) :=
  match nl, nr with
  | T _ _ _ _, T _ _ _ _ =>
      match maximum_node nl [] with
      | None => None
      | Some (pc, pl, pe, pr, cin) =>
          match kt with
          | KWord =>
              (* 599-609: swap key and value, then n = pred *)
              let ne' := mkEntry (eptr ne) (ekey pe) (eval pe) in
              let pe' := mkEntry (eptr pe) (ekey ne) (eval ne) in
              let above := cin ++ mkFrame LeftOf nc ne' nr :: c in
              obind (delete_one_child pc pl pr above) (fun t => Some (t, pe'))
          | KString =>
              (* 611-613, SwapNodes 522-555: the nodes (with identities) trade places and
                 colours; n now sits at pred's place and is removed *)
              let above := cin ++ mkFrame LeftOf nc pe nr :: c in
              obind (delete_one_child pc pl pr above) (fun t => Some (t, ne))
          | KStruct =>
              (* 614-625: swaps key bytes and value but keeps n, which has two children:
                 delete_one_child(n) then keeps only its right subtree *)
              obind (delete_one_child nc nl nr c) (fun t =>
                Some (t, mkEntry (eptr ne) (ekey pe) (eval pe)))
          end
      end
  | _, _ => obind (delete_one_child nc nl nr c) (fun t => Some (t, ne))
  end.

(** Jsi_TreeUnset, jsiTree.c:819-825; the flag is the C return value. *)
Definition tree_unset (kt : keytype) (k : K) (t : rbtree) : option (rbtree * bool) :=
  match find_path k (root t) [] with
  | None => Some (t, false)
  | Some (nc, nl, ne, nr, c) =>
      obind (entry_delete kt nc nl ne nr c) (fun '(r', _) =>
      Some (mkTree r' (numEntries t - 1) (epoch t + 1) (nextptr t), true))
  end.

(** Jsi_TreeSize, jsiTree.c:1021 *)
Definition tree_size (t : rbtree) : Z := numEntries t.

(** The recursive walks of Jsi_TreeWalk, jsiTree.c:827-905 (callback returning JSI_OK and
    not changing the tree: the entries in the order the callback sees them). *)
Fixpoint tree_inorder (t : tree) : list entry :=
  match t with E => [] | T _ l e r => tree_inorder r ++ e :: tree_inorder l end.
Fixpoint tree_preorder (t : tree) : list entry :=
  match t with E => [] | T _ l e r => e :: tree_preorder r ++ tree_preorder l end.
Fixpoint tree_postorder (t : tree) : list entry :=
  match t with E => [] | T _ l e r => tree_postorder r ++ tree_postorder l ++ [e] end.

(** tree_levelorder, jsiTree.c:873-897: the entries at depth [level] below [curlev] *)
Fixpoint tree_levelorder (t : tree) (curlev level : nat) : list entry :=
  match t with
  | E => []
  | T _ l e r =>
      if Nat.ltb level curlev then []
      else (if Nat.eqb curlev level then [e] else [])
           ++ tree_levelorder r (S curlev) level ++ tree_levelorder l (S curlev) level
  end.

(** Jsi_TreeWalk case JSI_TREE_ORDER_LEVEL, jsiTree.c:912-920: levels until one adds
    nothing; fuel bounds the number of levels ([None] when exhausted). *)
Fixpoint tree_walk_level (fuel : nat) (t : tree) (n : nat) : option (list entry) :=
  match fuel with
  | O => None
  | S f =>
      match tree_levelorder t 0 n with
      | [] => Some []
      | es => obind (tree_walk_level f t (S n)) (fun rest => Some (es ++ rest))
      end
  end.

(** ** The search iterators: Jsi_TreeSearch (jsi.h), jsiTree.c:643-792.
    Ptrs is the list of its [top] slots (slot 0 first); a NULL slot is [None].
    [smax] is max, [sstatic] says Ptrs is the static array of 200. *)
Record search := mkSearch { sptrs : list (option tree); smax : nat; sstatic : bool; scur : tree }.

(** searchSpace, jsiTree.c:643-655: growing out of the static array does not copy it. *)
Definition search_space (s : search) (n : nat) : search :=
  if Nat.leb (smax s) (length (sptrs s) + n) then
    mkSearch (if sstatic s then repeat None (length (sptrs s)) else sptrs s)
             (2 * smax s) false (scur s)
  else s.

Definition spush (t : tree) (s : search) : search :=
  match t with
  | E => s
  | T _ _ _ _ => mkSearch (sptrs s ++ [Some t]) (smax s) (sstatic s) (scur s)
  end.

(** Outcome of one searchAdd: an entry, the end, or a crash (NULL dereference). *)
Inductive sres := SEntry (e : entry) (s : search) | SEnd | SCrash.

(** searchAdd, case JSI_TREE_ORDER_IN, jsiTree.c:716-730. *)
Fixpoint search_in (fuel : nat) (s : search) : sres :=
  match fuel with
  | O => SCrash
  | S f =>
      let s := search_space s 2 in
      match scur s with
      | T _ _ _ r =>
          search_in f (mkSearch (sptrs s ++ [Some (scur s)]) (smax s) (sstatic s) r)
      | E =>
          match rev (sptrs s) with
          | [] => SEnd
          | None :: _ => SCrash
          | Some E :: _ => SCrash
          | Some (T _ l e _) :: rest => SEntry e (mkSearch (rev rest) (smax s) (sstatic s) l)
          end
      end
  end.

(** searchAdd, case JSI_TREE_ORDER_LEVEL, jsiTree.c:663-685; [first] is the hPtr argument. *)
Definition search_level (first : option tree) (s : search) : sres :=
  let s := search_space s 2 in
  match first with
  | Some (T _ l e r) => SEntry e (spush l (spush r s))
  | _ =>
      match sptrs s with
      | [] => SEnd
      | None :: _ => SCrash
      | Some E :: _ => SCrash
      | Some (T _ l e r) :: rest =>
          let s' := mkSearch rest (smax s) (sstatic s) (scur s) in
          SEntry e (spush l (spush r s'))
      end
  end.

(** searchAdd, case JSI_TREE_ORDER_PRE, jsiTree.c:706-714 and 739 (the final
    [return Ptrs[--top]] pops the slot just pushed). *)
Definition search_pre (first : option tree) (s : search) : sres :=
  let s := search_space s 2 in
  let go h s :=
    match h with
    | T _ l e r =>
        let s1 := spush r (spush l (mkSearch (sptrs s ++ [Some h]) (smax s) (sstatic s) (scur s))) in
        match rev (sptrs s1) with
        | Some (T _ _ e' _) :: rest => SEntry e' (mkSearch (rev rest) (smax s1) (sstatic s1) (scur s1))
        | _ => SCrash
        end
    | E => SCrash
    end in
  match first with
  | Some h => go h s
  | None =>
      match rev (sptrs s) with
      | [] => SEnd
      | Some h :: rest => go h (mkSearch (rev rest) (smax s) (sstatic s) (scur s))
      | None :: _ => SCrash
      end
  end.

(** searchAdd, case JSI_TREE_ORDER_POST, jsiTree.c:687-704.  The pointer comparisons with
    [current] compare entry addresses; NULL never equals [current], which is not NULL here
    unless the tree is empty. *)
Definition is_node (t : tree) (p : option nat) : bool :=
  match t, p with
  | T _ _ e _, Some q => Nat.eqb (eptr e) q
  | _, _ => false
  end.

Definition both_null (l r : tree) : bool :=
  match l, r with E, E => true | _, _ => false end.

Fixpoint search_post_loop (fuel : nat) (cur : option nat) (s : search)
  : option (option (entry * option nat * search)) :=
  match fuel with
  | O => None
  | S f =>
      match rev (sptrs s) with
      | [] => Some None
      | Some (T hc l e r) :: rest =>
          if is_node r cur || is_node l cur
             || both_null l r
          then Some (Some (e, Some (eptr e), mkSearch (rev rest) (smax s) (sstatic s) (scur s)))
          else search_post_loop f cur (spush r (spush l (search_space s 2)))
      | _ :: _ => None
      end
  end.

(** First call pushes the root and makes it current. *)
Definition search_post_first (t : tree) (s : search) : search * option nat :=
  let s := search_space s 2 in
  match t with
  | E => (s, None)
  | T _ _ e _ => (spush t s, Some (eptr e))
  end.

Fixpoint search_post_all (fuel depth : nat) (cur : option nat) (s : search) : option (list entry) :=
  match fuel with
  | O => None
  | S f =>
      match search_post_loop depth cur (search_space s 2) with
      | None => None
      | Some None => Some []
      | Some (Some (e, cur', s')) =>
          obind (search_post_all f depth cur' s') (fun l => Some (e :: l))
      end
  end.

(** Jsi_TreeSearchFirst, jsiTree.c:742-759 without start key: the initial state.
    staticPtrs has 200 slots (jsi.h). *)
Definition search_init (t : tree) : search := mkSearch [] 200 true t.

(** Jsi_TreeSearchFirst then Jsi_TreeSearchNext until NULL (787-795), tree unchanged.
    [None]: crash or the walk did not end within [fuel] steps. *)
Fixpoint search_in_all (fuel depth : nat) (s : search) : option (list entry) :=
  match fuel with
  | O => None
  | S f =>
      match search_in depth s with
      | SEnd => Some []
      | SCrash => None
      | SEntry e s' => obind (search_in_all f depth s') (fun l => Some (e :: l))
      end
  end.

Fixpoint search_level_all (fuel : nat) (first : option tree) (s : search) : option (list entry) :=
  match fuel with
  | O => None
  | S f =>
      match search_level first s with
      | SEnd => Some []
      | SCrash => None
      | SEntry e s' => obind (search_level_all f None s') (fun l => Some (e :: l))
      end
  end.

Fixpoint search_pre_all (fuel : nat) (first : option tree) (s : search) : option (list entry) :=
  match fuel with
  | O => None
  | S f =>
      match search_pre first s with
      | SEnd => Some []
      | SCrash => None
      | SEntry e s' => obind (search_pre_all f None s') (fun l => Some (e :: l))
      end
  end.

(** ** Histories *)
Inductive op := OpSet (k : K) (v : V) | OpUnset (k : K).

Definition run_op (kt : keytype) (o : op) (t : rbtree) : option rbtree :=
  match o with
  | OpSet k v => tree_set k v t
  | OpUnset k => obind (tree_unset kt k t) (fun '(t', _) => Some t')
  end.

Fixpoint run (kt : keytype) (ops : list op) (t : rbtree) : option rbtree :=
  match ops with
  | [] => Some t
  | o :: rest => obind (run_op kt o t) (fun t' => run kt rest t')
  end.

End Tree.

Arguments entry : clear implicits.
Arguments tree : clear implicits.
Arguments frame : clear implicits.
Arguments ctx : clear implicits.
Arguments rbtree : clear implicits.
Arguments op : clear implicits.
Arguments search : clear implicits.
Arguments sres : clear implicits.

(** ** The comparison procedures, jsiTree.c:256-279 *)

(** strcmp on byte strings (StringPtrCompare, jsiTree.c:256-262; Jsi_Strcmp, jsiChar.c:130-133):
    the difference of the first differing unsigned bytes, the end counting as 0. *)
Fixpoint strcmp (a b : list Z) : Z :=
  match a, b with
  | [], [] => 0
  | [], y :: _ => 0 - y
  | x :: _, [] => x
  | x :: a', y :: b' => if x =? y then strcmp a' b' else x - y
  end.

(** memcmp on [n] bytes (TreeArrayCompare, jsiTree.c:276-279). *)
Fixpoint memcmp (a b : list Z) : Z :=
  match a, b with
  | x :: a', y :: b' => if x =? y then memcmp a' b' else x - y
  | _, _ => 0
  end.

(** The conversion of a 64-bit unsigned difference to C int. *)
Definition to_int32 (x : Z) : Z :=
  let m := x mod 4294967296 in if m <? 2147483648 then m else m - 4294967296.

(** OneWordCompare, jsiTree.c:271-274: int truncation of the 64-bit difference. *)
Definition oneword_cmp (a b : Z) : Z := to_int32 ((a - b) mod 18446744073709551616).
