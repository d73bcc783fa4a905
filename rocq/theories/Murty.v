(** Model of include/murty.hpp: [allbut] (28-77), [MurtyState] (80-224),
    [MurtyStatePtrCompare] (227-237), [Murty] (239-330).

    Shared pointers to states are modelled by values (a state is referenced only
    by the queue and by locals of [draw]).  The debugging output is left out. *)
From Coq Require Import List Arith Bool.
Import ListNotations.
From Verif Require Import Res Scalar Lap.

(** [vector::erase(begin() + k)] and the vector versions of [allbut]
    (murty.hpp:51-77). *)
Definition remove_nth {A} (l : list A) (k : nat) : res (list A) :=
  if k <? length l then Ok (firstn k l ++ skipn (S k) l) else UB.

Fixpoint mapM {A B} (f : A -> res B) (l : list A) : res (list B) :=
  match l with
  | [] => Ok []
  | x :: l => y <- f x;; r <- mapM f l;; Ok (y :: r)
  end.

(** Matrix version of [allbut], murty.hpp:28-49: the four block copies drop one
    row and one column (simplification: one pass instead of four blocks). *)
Definition allbut {T} (C : matrix T) (row col : nat) : res (matrix T) :=
  if (row <? m_rows C) && (col <? m_cols C) then
    d <- mapM (fun ab : nat * nat =>
                 at_ C (if fst ab <? row then fst ab else S (fst ab))
                       (if snd ab <? col then snd ab else S (snd ab)))
              (list_prod (seq 0 (m_rows C - 1)) (seq 0 (m_cols C - 1)));;
    Ok (mkMat (m_rows C - 1) (m_cols C - 1) RowMajor d)
  else UB.

(** [C(i, j) = x] on a row-major matrix. *)
Definition set_at {T} (C : matrix T) (i j : nat) (x : T) : res (matrix T) :=
  if (i <? m_rows C) && (j <? m_cols C) then
    d <- set (m_data C) (i * m_cols C + j) x;;
    Ok (mkMat (m_rows C) (m_cols C) (m_ord C) d)
  else UB.

Section Murty.
Context {T : Type} (N : Num T).

(** MurtyState, murty.hpp:80-113.  Entries of [s_sol] (C++ [solution]) that are
    not written yet are [None]; [s_res] entries are column indices or -1
    ([None]). *)
Record mstate := mkSt {
  s_C : matrix T;
  s_u : list T;
  s_v : list T;
  s_cost : T;
  s_bound : T;
  s_solved : bool;
  s_sol : list (option nat);
  s_res : list (option nat);
  s_rmap : list nat;
  s_cmap : list nat }.

(** murty.hpp:100-113. *)
Definition root_state (C : matrix T) : mstate :=
  mkSt C (repeat (n0 N) (m_rows C)) (repeat (n0 N) (m_cols C)) (n0 N) (n0 N) false
       (repeat None (m_rows C)) [] (seq 0 (m_rows C)) (seq 0 (m_cols C)).

(** partition_with, murty.hpp:115-127. *)
Definition partition_with (s : mstate) (i j : nat) : res mstate :=
  C <- allbut (s_C s) i j;;
  u <- remove_nth (s_u s) i;;
  v <- remove_nth (s_v s) j;;
  rmap <- remove_nth (s_rmap s) i;;
  cmap <- remove_nth (s_cmap s) j;;
  c <- at_ (s_C s) i j;;
  Ok (mkSt C u v (s_cost s) (nadd N (s_bound s) c) false (s_sol s) [] rmap cmap).

(** partition_without and remove, murty.hpp:129-153. *)
Definition partition_without (s : mstate) (i j : nat) (dual : T) : res mstate :=
  C <- set_at (s_C s) i j (ninf N);;
  Ok (mkSt C (s_u s) (s_v s) (nadd N (s_cost s) dual) (s_bound s) false
           (s_sol s) [] (s_rmap s) (s_cmap s)).

(** solve, murty.hpp:155-188: the updated state and the return value. *)
Definition solve (fuel : nat) (s : mstate) : res (mstate * bool) :=
  r <- lap N fuel (s_C s);;
  if l_ok r then
    '(sol, cost) <-
      for_loop (length (l_rowsol r)) 0
        (fun i (st : list (option nat) * T) =>
           let '(sol, cost) := st in
           oj <- get (l_rowsol r) i;;
           j <- idx oj;;
           ri <- get (s_rmap s) i;;
           cj <- get (s_cmap s) j;;
           sol <- set sol ri (Some cj);;
           x <- at_ (s_C s) i j;;
           Ok (sol, nadd N cost x))
        (s_sol s, s_bound s);;
    Ok (mkSt (s_C s) (l_u r) (l_v r) cost (s_bound s) true sol (l_rowsol r)
             (s_rmap s) (s_cmap s), nlt N cost (ninf N))
  else
    Ok (mkSt (s_C s) (l_u r) (l_v r) (s_cost s) (s_bound s) true (s_sol s)
             (l_rowsol r) (s_rmap s) (s_cmap s), false).

(** operator< of std::tuple<double, unsigned, unsigned>. *)
Definition tuple_lt (a b : T * nat * nat) : bool :=
  let '(x, i, j) := a in
  let '(x', i', j') := b in
  nlt N x x' ||
  (negb (nlt N x' x) && ((i <? i') || (negb (i' <? i) && (j <? j')))).

Fixpoint insert_desc (a : T * nat * nat) (l : list (T * nat * nat)) :=
  match l with
  | [] => [a]
  | b :: l => if tuple_lt a b then b :: insert_desc a l else a :: b :: l
  end.

(** [std::sort(rbegin, rend)], murty.hpp:217: descending order (the row indices
    differ, so there are no equal elements). *)
Definition sort_desc (l : list (T * nat * nat)) : list (T * nat * nat) :=
  fold_right insert_desc [] l.

(** sort_by_dual, murty.hpp:190-223. *)
Definition sort_by_dual (s : mstate) : res (list (T * nat * nat)) :=
  l <- mapM (fun i =>
         oj <- get (s_res s) i;;
         ri <- idx oj;;
         h <- for_loop (m_cols (s_C s)) 0
           (fun j best =>
              if j =? ri then Ok best
              else
                c <- at_ (s_C s) i j;;
                if nle N (ninf N) c then Ok best
                else
                  ui <- get (s_u s) i;;
                  vj <- get (s_v s) j;;
                  let h := nsub N (nsub N c ui) vj in
                  Ok (if nlt N h best then h else best))
           (ninf N);;
         Ok (h, i, ri))
       (seq 0 (m_rows (s_C s)));;
  Ok (sort_desc l).

(** MurtyStatePtrCompare, murty.hpp:227-237: [a] comes after [b]. *)
Definition after (a b : mstate) : bool :=
  nlt N (s_cost b) (s_cost a) ||
  (neq N (s_cost a) (s_cost b) && (m_rows (s_C b) <? m_rows (s_C a))).

(** Murty, murty.hpp:239-252.  [mu_tick] counts the accesses to the top of the
    queue; it only serves to let the choice among equals depend on the
    history. *)
Record murty := mkMurty {
  mu_offset : T;
  mu_queue : list mstate;
  mu_tick : nat }.

(** Eigen's minCoeff; undefined on an empty matrix. *)
Definition min_coeff (l : list T) : res T :=
  match l with
  | [] => UB
  | x :: l => Ok (fold_left (fun m y => if nlt N y m then y else m) l x)
  end.

(** murty.hpp:244-252. *)
Definition murty_new (C : matrix T) : res murty :=
  min <- min_coeff (m_data C);;
  let '(C, offset) :=
    if nlt N min (n0 N) then
      (mkMat (m_rows C) (m_cols C) (m_ord C) (map (fun x => nsub N x min) (m_data C)),
       nmul N min (nofnat N (m_rows C)))
    else (C, n0 N) in
  Ok (mkMurty offset [root_state C] 0).

(** get_partition_index, murty.hpp:254-261.  The counters are decremented at
    most as often as there are smaller indices, so they do not wrap. *)
Definition get_partition_index (prev : list (T * nat * nat)) (i j : nat) : nat * nat :=
  (i - length (filter (fun p => snd (fst p) <? i) prev),
   j - length (filter (fun p => snd p <? j) prev)).

(** murty.hpp:316-324. *)
Fixpoint push_children (prev rest : list (T * nat * nat)) (node : mstate)
    (q : list mstate) : res (list mstate) :=
  match rest with
  | [] => Ok q
  | (dual, i0, j0) :: rest =>
      let '(i, j) := get_partition_index prev i0 j0 in
      q <- (if nlt N dual (ninf N) then
              c <- partition_without node i j dual;; Ok (q ++ [c])
            else Ok q);;
      node <- partition_with node i j;;
      push_children (prev ++ [(dual, i0, j0)]) rest node q
  end.

(** The element on top of the priority queue: any element no other one comes
    before.  Which one is unspecified; [pick tick q] is its position. *)
Variable pick : nat -> list mstate -> nat.

(** murty.hpp:281-292: solve states until a solved one is on top.  Each round
    solves a state, so the queue length bounds the number of rounds. *)
Fixpoint draw_loop (rounds fuel : nat) (q : list mstate) (tick : nat)
  : res (option mstate * list mstate * nat) :=
  match rounds with
  | O => OutOfFuel
  | S rounds =>
      let k := pick tick q in
      s <- get q k;;
      q' <- remove_nth q k;;
      if s_solved s then Ok (Some s, q', S tick)
      else
        '(s, ok) <- solve fuel s;;
        let q := if ok then q' ++ [s] else q' in
        match q with
        | [] => Ok (None, [], S tick)
        | _ => draw_loop rounds fuel q (S tick)
        end
  end.

(** draw, murty.hpp:271-326: cost and solution, or [None] for "false". *)
Definition draw (fuel : nat) (m : murty)
  : res (option (T * list (option nat)) * murty) :=
  match mu_queue m with
  | [] => Ok (None, m)
  | q =>
      '(s, q, tick) <- draw_loop (S (length q)) fuel q (mu_tick m);;
      match s with
      | None => Ok (None, mkMurty (mu_offset m) q tick)
      | Some s =>
          order <- sort_by_dual s;;
          q <- push_children [] order s q;;
          Ok (Some (nadd N (s_cost s) (mu_offset m), s_sol s),
              mkMurty (mu_offset m) q tick)
      end
  end.

(** [k] successive draws. *)
Fixpoint draws (fuel k : nat) (m : murty)
  : res (list (option (T * list (option nat)))) :=
  match k with
  | O => Ok []
  | S k =>
      '(r, m) <- draw fuel m;;
      rs <- draws fuel k m;;
      Ok (r :: rs)
  end.

(** A caller that constructs a Murty object and draws [k] times. *)
Definition murty_run (fuel k : nat) (C : matrix T)
  : res (list (option (T * list (option nat)))) :=
  m <- murty_new C;; draws fuel k m.
End Murty.

(** A possible queue: the first element that no other comes before. *)
Definition first_top {T} (N : Num T) (_ : nat) (q : list (mstate (T := T))) : nat :=
  match filter (fun k => match nth_error q k with
                         | Some s => forallb (fun x => negb (after N s x)) q
                         | None => false
                         end) (seq 0 (length q)) with
  | [] => 0
  | k :: _ => k
  end.
