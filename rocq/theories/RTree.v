(** Model of include/RTree.h as instantiated in include/targettree.hpp:
    RTree<Target*, double, 2>, MAXNODES 8, MINNODES 4.

    Nodes are values instead of heap cells: the code never shares nodes between
    branches, so updating a node through its pointer is updating the value.
    [m_count] and the first [m_count] cells of [m_branch] are the list of
    branches.  The union of child pointer and data is [item]; using data as a
    pointer is undefined behaviour.  The recursive functions take fuel; the
    callers pass one more than the level of the node.  ASSERTs are not
    modelled (they do nothing in release builds). *)
From Coq Require Import List Arith Bool Lia.
Import ListNotations.
From Verif Require Import Res Scalar.

Definition MAXNODES : nat := 8.
Definition MINNODES : nat := 4.

(** Rect, RTree.h:270-274, for two dimensions. *)
Record rect (T : Type) := mkRect { min0 : T; min1 : T; max0 : T; max1 : T }.
Arguments mkRect {T}. Arguments min0 {T}. Arguments min1 {T}. Arguments max0 {T}. Arguments max1 {T}.

(** Branch and Node, RTree.h:276-298.  A node is its level and its branches. *)
Inductive item (T D : Type) : Type :=
| Data (d : D)
| Sub (level : nat) (bs : list (rect T * item T D)).
Arguments Data {T D}. Arguments Sub {T D}.

Definition branch (T D : Type) : Type := (rect T * item T D)%type.
Definition node (T D : Type) : Type := (nat * list (branch T D))%type.

Section RTree.
Context {T D : Type} (O : Num T) (deq : D -> D -> bool).
(** CalcRectVolume, RTree.h:1176-1184 (see [spherical] below). *)
Variable vol : rect T -> T.

Notation rect := (rect T). Notation item := (item T D).
Notation branch := (branch T D). Notation node := (node T D).

(** std::min, std::max *)
Definition fmin (a b : T) : T := if nlt O b a then b else a.
Definition fmax (a b : T) : T := if nlt O a b then b else a.

(** CombineRect, RTree.h:1075-1089. *)
Definition combine_rect (a b : rect) : rect :=
  mkRect (fmin (min0 a) (min0 b)) (fmin (min1 a) (min1 b))
         (fmax (max0 a) (max0 b)) (fmax (max1 a) (max1 b)).

(** Overlap, RTree.h:1508-1521. *)
Definition overlap (a b : rect) : bool :=
  negb (nlt O (max0 b) (min0 a) || nlt O (max0 a) (min0 b)) &&
  negb (nlt O (max1 b) (min1 a) || nlt O (max1 a) (min1 b)).

(** InitRect, RTree.h:859-867. *)
Definition zero_rect : rect := mkRect (n0 O) (n0 O) (n0 O) (n0 O).

(** NodeCover, RTree.h:964-987. *)
Definition node_cover (bs : list branch) : rect :=
  match bs with
  | [] => zero_rect
  | b :: bs => fold_left (fun r b => combine_rect r (fst b)) bs (fst b)
  end.

(** ** Splitting *)
(** The groups 0 and 1 are [false] and [true].  [m_taken] is merged with
    [m_partition]: both are written by Classify and InitParVars only, so
    m_taken[i] holds exactly when m_partition[i] is not -1 ([None]). *)
Record pvars := mkPv {
  p_part : list (option bool);
  p_count : bool -> nat;
  p_cover : bool -> option rect;   (* [None]: not initialised *)
  p_area : bool -> T }.

Definition upd_fun {A} (f : bool -> A) (g : bool) (x : A) : bool -> A :=
  fun h => if Bool.eqb g h then x else f h.

(** InitParVars, RTree.h:1331-1344. *)
Definition init_pv (n : nat) : pvars :=
  mkPv (repeat None n) (fun _ => 0) (fun _ => None) (fun _ => n0 O).

(** Classify, RTree.h:1381-1399. *)
Definition classify (buf : list branch) (i : nat) (g : bool) (pv : pvars) : res pvars :=
  part <- set (p_part pv) i (Some g);;
  b <- get buf i;;
  cover <- (if p_count pv g =? 0 then Ok (fst b)
            else match p_cover pv g with
                 | None => UB
                 | Some c => Ok (combine_rect (fst b) c)
                 end);;
  Ok (mkPv part (upd_fun (p_count pv) g (S (p_count pv g)))
           (upd_fun (p_cover pv) g (Some cover)) (upd_fun (p_area pv) g (vol cover))).

Definition n1 : T := nofnat O 1.

(** PickSeeds, RTree.h:1348-1376.  The seeds are not initialised: [None]. *)
Definition pick_seeds (buf : list branch) (cover_area : T) : res (nat * nat) :=
  let total := length buf in
  let area := map (fun b => vol (fst b)) buf in
  st <- for_loop (total - 1) 0
          (fun ia st =>
             for_loop (total - S ia) (S ia)
               (fun ib st =>
                  ba <- get buf ia;;
                  bb <- get buf ib;;
                  aa <- get area ia;;
                  ab <- get area ib;;
                  let waste := nsub O (nsub O (vol (combine_rect (fst ba) (fst bb))) aa) ab in
                  let '(worst, seeds) := st in
                  if nlt O worst waste then Ok (waste, Some (ia, ib)) else Ok (worst, seeds)) st)
          (nsub O (nsub O (n0 O) cover_area) n1, None);;
  match snd st with Some s => Ok s | None => UB end.

(** One pass over the branches in ChoosePartition, RTree.h:1242-1277.  [chosen]
    and [betterGroup] keep their values from earlier rounds ([None]: not yet
    initialised). *)
Definition best_next (buf : list branch) (pv : pvars) (chosen : option (nat * bool))
  : res (option (nat * bool)) :=
  st <- for_loop (length buf) 0
    (fun i st =>
       let '(biggest, chosen) := st in
       taken <- get (p_part pv) i;;
       match taken with
       | Some _ => Ok st
       | None =>
           b <- get buf i;;
           match p_cover pv false, p_cover pv true with
           | Some c0, Some c1 =>
               let growth0 := nsub O (vol (combine_rect (fst b) c0)) (p_area pv false) in
               let growth1 := nsub O (vol (combine_rect (fst b) c1)) (p_area pv true) in
               let diff := nsub O growth1 growth0 in
               let '(group, diff) :=
                 if nle O (n0 O) diff then (false, diff) else (true, nsub O (n0 O) diff) in
               if nlt O biggest diff then Ok (diff, Some (i, group))
               else if neq O diff biggest then
                 match chosen with
                 | None => UB
                 | Some (_, better) =>
                     if p_count pv group <? p_count pv better then Ok (biggest, Some (i, group))
                     else Ok st
                 end
               else Ok st
           | _, _ => UB
           end
       end)
    (nsub O (n0 O) n1, chosen);;
  Ok (snd st).

(** The while loop of ChoosePartition, RTree.h:1238-1277. *)
Fixpoint partition_loop (rounds : nat) (buf : list branch) (pv : pvars)
    (chosen : option (nat * bool)) : res pvars :=
  match rounds with
  | 0 => OutOfFuel
  | S rounds =>
      let total := length buf in
      if (p_count pv false + p_count pv true <? total) &&
         (p_count pv false <? total - MINNODES) && (p_count pv true <? total - MINNODES)
      then
        chosen <- best_next buf pv chosen;;
        match chosen with
        | None => UB
        | Some (i, g) =>
            pv <- classify buf i g pv;;
            partition_loop rounds buf pv chosen
        end
      else Ok pv
  end.

(** ChoosePartition, RTree.h:1228-1303. *)
Definition choose_partition (buf : list branch) (cover_area : T) : res pvars :=
  let total := length buf in
  '(seed0, seed1) <- pick_seeds buf cover_area;;
  pv <- classify buf seed0 false (init_pv total);;
  pv <- classify buf seed1 true pv;;
  pv <- partition_loop (S total) buf pv None;;
  if p_count pv false + p_count pv true <? total then
    let group := total - MINNODES <=? p_count pv false in
    for_loop total 0
      (fun i pv =>
         taken <- get (p_part pv) i;;
         match taken with Some _ => Ok pv | None => classify buf i group pv end) pv
  else Ok pv.

(** AddBranch with a NULL [a_newNode]: a full node would be split into NULL. *)
Definition add_plain (b : branch) (bs : list branch) : res (list branch) :=
  if length bs <? MAXNODES then Ok (bs ++ [b]) else UB.

(** LoadNodes, RTree.h:1307-1327. *)
Definition load_nodes (buf : list branch) (pv : pvars) : res (list branch * list branch) :=
  for_loop (length buf) 0
    (fun i st =>
       let '(a, b) := st in
       p <- get (p_part pv) i;;
       br <- get buf i;;
       match p with
       | Some false => a <- add_plain br a;; Ok (a, b)
       | Some true => b <- add_plain br b;; Ok (a, b)
       | None => Ok (a, b)
       end) ([], []).

(** SplitNode, RTree.h:1097-1120, with GetBranches 1189-1212. *)
Definition split_node (bs : list branch) (b : branch) : res (list branch * list branch) :=
  let buf := firstn MAXNODES bs ++ [b] in
  pv <- choose_partition buf (vol (node_cover buf));;
  load_nodes buf pv.

(** AddBranch, RTree.h:994-1013: the node's branches and, if it was split, the
    branches of the new node. *)
Definition add_branch (b : branch) (bs : list branch) : res (list branch * option (list branch)) :=
  if length bs <? MAXNODES then Ok (bs ++ [b], None)
  else '(x, y) <- split_node bs b;; Ok (x, Some y).

(** ** Insertion *)
(** PickBranch, RTree.h:1037-1070; [best] is not initialised for a node without
    branches. *)
Definition pick_branch (r : rect) (bs : list branch) : res nat :=
  st <- for_loop (length bs) 0
    (fun i st =>
       b <- get bs i;;
       let area := vol (fst b) in
       let incr := nsub O (vol (combine_rect r (fst b))) area in
       match st with
       | None => Ok (Some (i, area, incr))
       | Some (best, best_area, best_incr) =>
           if nlt O incr best_incr then Ok (Some (i, area, incr))
           else if neq O incr best_incr && nlt O area best_area then Ok (Some (i, area, incr))
           else Ok st
       end) None;;
  match st with Some (best, _, _) => Ok best | None => UB end.

(** InsertRectRec, RTree.h:878-919. *)
Fixpoint insert_rec (fuel : nat) (r : rect) (it : item) (lv : nat) (level : nat) (bs : list branch)
  : res (list branch * option (list branch)) :=
  match fuel with
  | 0 => OutOfFuel
  | S fuel =>
      if lv <? level then
        i <- pick_branch r bs;;
        b <- get bs i;;
        match snd b with
        | Data _ => UB
        | Sub level' bs' =>
            '(bs1, o) <- insert_rec fuel r it lv level' bs';;
            match o with
            | None =>
                bs'' <- set bs i (combine_rect r (fst b), Sub level' bs1);;
                Ok (bs'', None)
            | Some bs2 =>
                bs'' <- set bs i (node_cover bs1, Sub level' bs1);;
                add_branch (node_cover bs2, Sub level' bs2) bs''
            end
        end
      else if level =? lv then add_branch (r, it) bs
      else Ok (bs, None)
  end.

(** InsertRect, RTree.h:929-960. *)
Definition insert_rect (r : rect) (it : item) (lv : nat) (root : node) : res node :=
  let '(level, bs) := root in
  '(bs1, o) <- insert_rec (S level) r it lv level bs;;
  match o with
  | None => Ok (level, bs1)
  | Some bs2 =>
      bs' <- add_plain (node_cover bs1, Sub level bs1) [];;
      bs' <- add_plain (node_cover bs2, Sub level bs2) bs';;
      Ok (S level, bs')
  end.

(** Insert, RTree.h:478-496. *)
Definition insert (r : rect) (d : D) (root : node) : res node := insert_rect r (Data d) 0 root.

(** The constructor, RTree.h:464-465, and RemoveAll, RTree.h:759-768. *)
Definition empty : node := (0, []).

(** ** Removal *)
(** DisconnectBranch, RTree.h:1019-1028. *)
Definition disconnect (bs : list branch) (i : nat) : res (list branch) :=
  last <- get bs (length bs - 1);;
  bs' <- set bs i last;;
  Ok (removelast bs').

Definition is_data (d : D) (it : item) : bool :=
  match it with Data d' => deq d' d | Sub _ _ => false end.

(** RemoveRectRec, RTree.h:1461-1504: [None] when the record was not found (the
    code returns true), otherwise the node's branches and the list of
    eliminated nodes. *)
Fixpoint remove_rec (fuel : nat) (r : rect) (d : D) (level : nat) (bs : list branch)
    (lst : list node) : res (option (list branch * list node)) :=
  match fuel with
  | 0 => OutOfFuel
  | S fuel =>
      if 0 <? level then
        for_break (length bs) 0
          (fun i _ =>
             b <- get bs i;;
             if overlap r (fst b) then
               match snd b with
               | Data _ => UB
               | Sub level' bs' =>
                   o <- remove_rec fuel r d level' bs' lst;;
                   match o with
                   | None => Ok (None, false)
                   | Some (bs1, lst) =>
                       if MINNODES <=? length bs1 then
                         bs'' <- set bs i (node_cover bs1, Sub level' bs1);;
                         Ok (Some (bs'', lst), true)
                       else
                         bs'' <- disconnect bs i;;
                         Ok (Some (bs'', (level', bs1) :: lst), true)
                   end
               end
             else Ok (None, false)) None
      else
        for_break (length bs) 0
          (fun i _ =>
             b <- get bs i;;
             if is_data d (snd b) then
               bs'' <- disconnect bs i;;
               Ok (Some (bs'', lst), true)
             else Ok (None, false)) None
  end.

(** RemoveRect, RTree.h:1407-1451. *)
Definition reinsert_node (n : node) (root : node) : res node :=
  for_loop (length (snd n)) 0
    (fun i root => b <- get (snd n) i;; insert_rect (fst b) (snd b) (fst n) root) root.

Fixpoint reinsert_list (lst : list node) (root : node) : res node :=
  match lst with
  | [] => Ok root
  | n :: lst => root <- reinsert_node n root;; reinsert_list lst root
  end.

Definition remove (r : rect) (d : D) (root : node) : res node :=
  let '(level, bs) := root in
  o <- remove_rec (S level) r d level bs [];;
  match o with
  | None => Ok root
  | Some (bs', lst) =>
      '(level, bs) <- reinsert_list lst (level, bs');;
      if (length bs =? 1) && (0 <? level) then
        b <- get bs 0;;
        match snd b with Data _ => UB | Sub l' bs' => Ok (l', bs') end
      else Ok (level, bs)
  end.

(** ** Queries *)
(** Search, RTree.h:1540-1580, with a callback that stores the data and
    continues (rtree_callback, targettree.hpp:11-15). *)
Fixpoint search_rec (fuel : nat) (q : rect) (level : nat) (bs : list branch) (acc : list D) : res (list D) :=
  match fuel with
  | 0 => OutOfFuel
  | S fuel =>
      for_loop (length bs) 0
        (fun i acc =>
           b <- get bs i;;
           if overlap q (fst b) then
             match snd b with
             | Sub level' bs' => if 0 <? level then search_rec fuel q level' bs' acc else UB
             | Data d => if 0 <? level then UB else Ok (acc ++ [d])
             end
           else Ok acc) acc
  end.
Definition search (q : rect) (root : node) : res (list D) :=
  search_rec (S (fst root)) q (fst root) (snd root) [].

(** Count, RTree.h:549-573. *)
Fixpoint count_rec (fuel : nat) (level : nat) (bs : list branch) (n : nat) : res nat :=
  match fuel with
  | 0 => OutOfFuel
  | S fuel =>
      if 0 <? level then
        for_loop (length bs) 0
          (fun i n =>
             b <- get bs i;;
             match snd b with Sub level' bs' => count_rec fuel level' bs' n | Data _ => UB end) n
      else Ok (n + length bs)
  end.
Definition count (root : node) : res nat := count_rec (S (fst root)) (fst root) (snd root) 0.

(** ** Iterator, RTree.h:106-265 *)
(** The stack, top first; MAX_STACK = 32. *)
Definition MAX_STACK : nat := 32.
Definition frame : Type := (node * nat)%type.

Definition push (f : frame) (st : list frame) : res (list frame) :=
  if length st <? MAX_STACK then Ok (f :: st) else UB.

(** GetFirst, RTree.h:235-256. *)
Fixpoint get_first (fuel : nat) (n : node) (st : list frame) : res (list frame) :=
  match fuel with
  | 0 => OutOfFuel
  | S fuel =>
      let '(level, bs) := n in
      if (0 <? level) && (1 <? length bs) then
        st <- push (n, 1) st;;
        b <- get bs 0;;
        match snd b with Sub l' bs' => get_first fuel (l', bs') st | Data _ => UB end
      else if level =? 0 then
        if length bs =? 0 then Ok st else push (n, 0) st
      else
        b <- get bs 0;;
        match snd b with Sub l' bs' => get_first fuel (l', bs') st | Data _ => UB end
  end.

(** FindNextData, RTree.h:169-210. *)
Fixpoint find_next (fuel : nat) (st : list frame) : res (list frame) :=
  match fuel with
  | 0 => OutOfFuel
  | S fuel =>
      match st with
      | [] => Ok []
      | ((level, bs), i) :: st =>
          if level =? 0 then
            if i + 1 <? length bs then push ((level, bs), i + 1) st
            else find_next fuel st
          else
            st <- (if i + 1 <? length bs then push ((level, bs), i + 1) st else Ok st);;
            b <- get bs i;;
            match snd b with
            | Data _ => UB
            | Sub l' bs' =>
                st <- push ((l', bs'), 0) st;;
                if l' =? 0 then Ok st else find_next fuel st
            end
      end
  end.

(** operator*, RTree.h:131-137. *)
Definition current (st : list frame) : res D :=
  match st with
  | [] => UB
  | ((_, bs), i) :: _ => b <- get bs i;; match snd b with Data d => Ok d | Sub _ _ => UB end
  end.

(** for (GetFirst(it); !IsNull(it); GetNext(it)) visit(GetAt(it)) *)
Fixpoint iterate_loop (rounds fuel : nat) (st : list frame) (acc : list D) : res (list D) :=
  match rounds with
  | 0 => OutOfFuel
  | S rounds =>
      match st with
      | [] => Ok acc
      | _ => d <- current st;; st <- find_next fuel st;; iterate_loop rounds fuel st (acc ++ [d])
      end
  end.
Definition iterate (fuel : nat) (root : node) : res (list D) :=
  st <- get_first fuel root [];; iterate_loop fuel fuel st [].

(** ** Save and Load, RTree.h:576-756 *)
(** The stream is the sequence of written objects; reading an object of another
    kind (it would reinterpret bytes) or past the end is not modelled: [UB]. *)
Inductive token : Type := TInt (n : nat) | TMin (a b : T) | TMax (a b : T) | TData (d : D).

(** sizeof(DATATYPE), NUMDIMS, sizeof(ELEMTYPE), sizeof(ELEMTYPEREAL), MAXNODES,
    MINNODES; the file id stands for 'RTRE'. *)
Variable file_id : nat.
Definition header : list nat := [file_id; 8; 2; 8; 8; MAXNODES; MINNODES].

(** SaveRec, RTree.h:724-756. *)
Fixpoint save_rec (fuel : nat) (level : nat) (bs : list branch) (out : list token) : res (list token) :=
  match fuel with
  | 0 => OutOfFuel
  | S fuel =>
      for_loop (length bs) 0
        (fun i out =>
           b <- get bs i;;
           let out := out ++ [TMin (min0 (fst b)) (min1 (fst b)); TMax (max0 (fst b)) (max1 (fst b))] in
           match snd b with
           | Sub l' bs' => if 0 <? level then save_rec fuel l' bs' out else UB
           | Data d => if 0 <? level then UB else Ok (out ++ [TData d])
           end) (out ++ [TInt level; TInt (length bs)])
  end.
(** Save, RTree.h:697-721. *)
Definition save (root : node) : res (list token) :=
  save_rec (S (fst root)) (fst root) (snd root) (map TInt header).

Definition read_int (ts : list token) : res (nat * list token) :=
  match ts with TInt n :: ts => Ok (n, ts) | _ => UB end.

(** LoadRec, RTree.h:644-677: a node with more branches than m_branch holds is
    written past the end. *)
Fixpoint load_rec (fuel : nat) (ts : list token) : res (node * list token) :=
  match fuel with
  | 0 => OutOfFuel
  | S fuel =>
      '(level, ts) <- read_int ts;;
      '(n, ts) <- read_int ts;;
      '(bs, ts) <- for_loop n 0
        (fun i st =>
           let '(bs, ts) := st in
           if MAXNODES <=? i then UB else
           match ts with
           | TMin a b :: TMax c d :: ts =>
               if 0 <? level then
                 '(nd, ts) <- load_rec fuel ts;;
                 Ok (bs ++ [(mkRect a b c d, Sub (fst nd) (snd nd))], ts)
               else
                 match ts with
                 | TData x :: ts => Ok (bs ++ [(mkRect a b c d, Data x)], ts)
                 | _ => UB
                 end
           | _ => UB
           end) ([], ts);;
      Ok ((level, bs), ts)
  end.

(** Load, RTree.h:596-641: [None] if the header does not fit. *)
Definition load (fuel : nat) (ts : list token) : res (option node) :=
  '(h, ts) <- for_loop (length header) 0
    (fun _ st => let '(h, ts) := st in '(n, ts) <- read_int ts;; Ok (h ++ [n], ts)) ([], ts);;
  if list_eq_dec Nat.eq_dec h header then
    '(nd, _) <- load_rec fuel ts;; Ok (Some nd)
  else Ok None.

(** ** Histories *)
Inductive op : Type :=
| OpInsert (r : rect) (d : D)
| OpRemove (r : rect) (d : D)
| OpRemoveAll.

Definition step (root : node) (o : op) : res node :=
  match o with
  | OpInsert r d => insert r d root
  | OpRemove r d => remove r d root
  | OpRemoveAll => Ok empty
  end.

Fixpoint run (root : node) (ops : list op) : res node :=
  match ops with
  | [] => Ok root
  | o :: ops => root <- step root o;; run root ops
  end.
End RTree.

(** RectSphericalVolume, RTree.h:1144-1172, for two dimensions:
    radius * radius * 3.141593f with radius = sqrt(sum of squares). *)
Section Volume.
Context {T : Type} (O : Num T) (half unit : T) (sqrt : T -> T).
Definition spherical (r : rect T) : T :=
  let h0 := nmul O (nsub O (max0 r) (min0 r)) half in
  let h1 := nmul O (nsub O (max1 r) (min1 r)) half in
  let radius := sqrt (nadd O (nadd O (n0 O) (nmul O h0 h0)) (nmul O h1 h1)) in
  nmul O (nmul O radius radius) unit.
End Volume.
