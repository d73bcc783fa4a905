(** Model of include/rlapjv.h: [find_umins_plain] (lines 26-57), [find_umins]
    (59-258, both builds), [rlap] (269-515), [lap] (519-568), [cost] (570-577).

    Arrays are lists; the C++ index marker -1 is [None].  Every array access is
    bounds-checked and yields [UB] outside the array.  Arithmetic is that of
    the number type [N].  The arrays [collist], [d], [pred] are uninitialised
    in C++ until the loop at 368-373 fills them completely; the model creates
    them by that loop.  [verbose] output is left out. *)
From Coq Require Import List Arith Bool ZArith.
Import ListNotations.
From Verif Require Import Res Scalar.

(** Eigen storage order of a matrix (Eigen's default is column-major;
    rlapjv.h:10 CostMatrix is row-major, lmb.hpp:265, 316 use the default). *)
Inductive order := RowMajor | ColMajor.

(** An Eigen matrix: dimensions and the array behind [data()]. *)
Record matrix (T : Type) := mkMat {
  m_rows : nat; m_cols : nat; m_ord : order; m_data : list T }.
Arguments mkMat {T}. Arguments m_rows {T}. Arguments m_cols {T}.
Arguments m_ord {T}. Arguments m_data {T}.

(** [C(i, j)] *)
Definition at_ {T} (C : matrix T) (i j : nat) : res T :=
  if (i <? m_rows C) && (j <? m_cols C) then
    get (m_data C) (match m_ord C with
                    | RowMajor => i * m_cols C + j
                    | ColMajor => j * m_rows C + i
                    end)
  else UB.

Section Lap.
Context {T : Type} (N : Num T).

(** Update of the two smallest reduced costs with a new one, written out twice
    in the code: rlapjv.h:40-54, 235-249. *)
Definition umins_step (j : nat) (h : T) (s : T * T * option nat * option nat)
  : T * T * option nat * option nat :=
  let '(umin, usubmin, j1, j2) := s in
  if nlt N h usubmin then
    if nle N umin h then (umin, h, j1, Some j)
    else (h, umin, Some j, j1)
  else s.

(** find_umins_plain, rlapjv.h:26-57. *)
Definition find_umins_plain (dim i : nat) (C v : list T)
  : res (T * T * option nat * option nat) :=
  c0 <- get C (i * dim + 0);;
  v0 <- get v 0;;
  for_loop (dim - 1) 1
    (fun j s =>
       cj <- get C (i * dim + j);;
       vj <- get v j;;
       Ok (umins_step j (nsub N cj vj) s))
    (nsub N c0 v0, ninf N, Some 0, None).

(** One lane of the vector registers, rlapjv.h:179-190: [cmp] selects by blend;
    the new value wins ties against the minimum. *)
Definition lane_step (j : nat) (h : T) (s : T * T * option nat * option nat)
  : T * T * option nat * option nat :=
  let '(umin, usubmin, j1, j2) := s in
  if nle N h umin then (h, umin, Some j, j1)
  else if nlt N h usubmin then (umin, h, j1, Some j)
  else s.

(** The four lanes at columns [j .. j+3], rlapjv.h:176-191. *)
Fixpoint lanes_step (i dim j : nat) (C v : list T)
    (ls : list (T * T * option nat * option nat))
  : res (list (T * T * option nat * option nat)) :=
  match ls with
  | [] => Ok []
  | l :: ls =>
      cj <- get C (i * dim + j);;
      vj <- get v j;;
      ls <- lanes_step i dim (S j) C v ls;;
      Ok (lane_step j (nsub N cj vj) l :: ls)
  end.

(** rlapjv.h:203-222: the minima of the lanes. *)
Definition merge_min (ls : list (T * T * option nat * option nat))
    (s : T * T * option nat * option nat) : T * T * option nat * option nat :=
  fold_left
    (fun s l =>
       let '(umin, usubmin, j1, j2) := s in
       let '(h, _, jnew, _) := l in
       if nlt N h usubmin then
         if nle N umin h then (umin, h, j1, jnew) else (h, umin, jnew, j1)
       else s)
    ls s.

(** rlapjv.h:223-231: the second smallest of the lanes. *)
Definition merge_sub (ls : list (T * T * option nat * option nat))
    (s : T * T * option nat * option nat) : T * T * option nat * option nat :=
  fold_left
    (fun s l =>
       let '(umin, usubmin, j1, j2) := s in
       let '(_, h, _, jnew) := l in
       if nlt N h usubmin then (umin, h, j1, jnew) else s)
    ls s.

(** find_umins for doubles with AVX2, rlapjv.h:160-252, from line 170 on: four
    lanes over the columns below [dim & ~3], then the rest one by one.  The
    variant for floats (66-158) is never instantiated. *)
Definition find_umins_avx2 (dim i : nat) (C v : list T)
  : res (T * T * option nat * option nat) :=
  let start := (ninf N, ninf N, None, None) in
  ls <- for_loop (dim / 4) 0
          (fun b ls => lanes_step i dim (4 * b) C v ls) (repeat start 4);;
  for_loop (dim - 4 * (dim / 4)) (4 * (dim / 4))
    (fun j s =>
       cj <- get C (i * dim + j);;
       vj <- get v j;;
       Ok (umins_step j (nsub N cj vj) s))
    (merge_sub ls (merge_min ls start)).

(** find_umins, rlapjv.h:59-258; [simd]: compiled with AVX2.  The caller uses
    [j1] as an index at once (rlapjv.h:317), so -1 is undefined here. *)
Definition find_umins (simd : bool) (dim i : nat) (C v : list T)
  : res (T * T * nat * option nat) :=
  '(umin, usubmin, j1, j2) <-
    (if simd && negb (Z.of_nat dim <? 100000)%Z then find_umins_avx2 dim i C v
     else find_umins_plain dim i C v);;
  j1 <- idx j1;;
  Ok (umin, usubmin, j1, j2).

Variable simd : bool.

(** State of the augmenting row reduction, rlapjv.h:300-358. *)
Record arr := mkArr {
  a_free : list nat;
  a_rowsol : list (option nat);
  a_colsol : list (option nat);
  a_v : list T;
  a_k : nat;
  a_numfree : nat }.

(** Loop body, rlapjv.h:309-353. *)
Definition arr_step (dim1 : nat) (C : list T) (s : arr) : res arr :=
  i <- get (a_free s) (a_k s);;
  let k := S (a_k s) in
  '(umin, usubmin, j1, j2) <- find_umins simd dim1 i C (a_v s);;
  i0 <- get (a_colsol s) j1;;
  vj1 <- get (a_v s) j1;;
  let vj1_new := nsub N vj1 (nsub N usubmin umin) in
  let lowers := nlt N vj1_new vj1 in
  '(v, j1, i0) <-
    (if lowers then
       v <- set (a_v s) j1 vj1_new;;
       Ok (v, j1, i0)
     else match i0 with
          | Some _ =>
              j2 <- idx j2;;
              i0 <- get (a_colsol s) j2;;
              Ok (a_v s, j2, i0)
          | None => Ok (a_v s, j1, i0)
          end);;
  rowsol <- set (a_rowsol s) i (Some j1);;
  colsol <- set (a_colsol s) j1 (Some i);;
  match i0 with
  | Some i0 =>
      if lowers then
        free <- set (a_free s) (k - 1) i0;;
        Ok (mkArr free rowsol colsol v (k - 1) (a_numfree s))
      else
        free <- set (a_free s) (a_numfree s) i0;;
        Ok (mkArr free rowsol colsol v k (S (a_numfree s)))
  | None => Ok (mkArr (a_free s) rowsol colsol v k (a_numfree s))
  end.

(** while (k < prevnumfree), rlapjv.h:308-353; no bound is visible in the
    code, so the loop takes fuel. *)
Fixpoint arr_loop (fuel dim1 : nat) (C : list T) (prev : nat) (s : arr)
  : res arr :=
  if a_k s <? prev then
    match fuel with
    | O => OutOfFuel
    | S fuel => s' <- arr_step dim1 C s;; arr_loop fuel dim1 C prev s'
    end
  else Ok s.

(** for (loopcnt < 2), rlapjv.h:299-356. *)
Definition arr_pass (fuel dim1 : nat) (C : list T) (s : arr) : res arr :=
  arr_loop fuel dim1 C (a_numfree s)
    (mkArr (a_free s) (a_rowsol s) (a_colsol s) (a_v s) 0 0).

(** State of the shortest path search, rlapjv.h:360-463.  [p_last] is the C++
    [last] + 1, i.e. the number of columns k <= last. *)
Record dij := mkDij {
  p_d : list T;
  p_pred : list nat;
  p_collist : list nat;
  p_low : nat;
  p_up : nat;
  p_last : nat;
  p_min : T;
  p_end : option nat     (* endofpath if unassigned_found *) }.

(** rlapjv.h:395-414: collect the columns at the new minimum. *)
Definition find_min (dim1 : nat) (d : list T) (collist : list nat) (low up : nat)
  : res (list nat * nat * T) :=
  c <- get collist up;;
  m <- get d c;;
  for_loop (dim1 - S up) (S up)
    (fun k s =>
       let '(collist, up, min) := s in
       j <- get collist k;;
       h <- get d j;;
       if nle N h min then
         let '(up, min) := if nlt N h min then (low, h) else (up, min) in
         cu <- get collist up;;
         collist <- set collist k cu;;
         collist <- set collist up j;;
         Ok (collist, S up, min)
       else Ok s)
    (collist, S up, m).

(** rlapjv.h:416-426: look for an unassigned column among them. *)
Definition find_unassigned (colsol : list (option nat)) (collist : list nat)
    (low up : nat) : res (option nat) :=
  for_break (up - low) low
    (fun k (s : option nat) =>
       j <- get collist k;;
       r <- get colsol j;;
       Ok (match r with None => (Some j, true) | Some _ => (s, false) end))
    None.

(** rlapjv.h:429-462: scan one column. *)
Definition scan_column (dim1 : nat) (C v : list T) (colsol : list (option nat))
    (s : dij) : res dij :=
  j1 <- get (p_collist s) (p_low s);;
  ci <- get colsol j1;;
  i <- idx ci;;
  cij1 <- get C (i * dim1 + j1);;
  vj1 <- get v j1;;
  let min := p_min s in
  let h := nsub N (nsub N cij1 vj1) min in
  '(d, pred, collist, up, e) <-
    for_break (dim1 - p_up s) (p_up s)
      (fun k st =>
         let '(d, pred, collist, up, e) := st in
         j <- get collist k;;
         cij <- get C (i * dim1 + j);;
         vj <- get v j;;
         let v2 := nsub N (nsub N cij vj) h in
         dj <- get d j;;
         if nlt N v2 dj then
           pred <- set pred j i;;
           if neq N v2 min then
             cj <- get colsol j;;
             match cj with
             | None => Ok ((d, pred, collist, up, Some j), true)
             | Some _ =>
                 cu <- get collist up;;
                 collist <- set collist k cu;;
                 collist <- set collist up j;;
                 d <- set d j v2;;
                 Ok ((d, pred, collist, S up, e), false)
             end
           else
             d <- set d j v2;;
             Ok ((d, pred, collist, up, e), false)
         else Ok (st, false))
      (p_d s, p_pred s, p_collist s, p_up s, p_end s);;
  Ok (mkDij d pred collist (S (p_low s)) up (p_last s) min e).

(** do-while body, rlapjv.h:391-463. *)
Definition dij_step (dim1 : nat) (C v : list T) (colsol : list (option nat))
    (s : dij) : res dij :=
  s <- (if p_up s =? p_low s then
          '(collist, up, min) <-
            find_min dim1 (p_d s) (p_collist s) (p_low s) (p_up s);;
          e <- find_unassigned colsol collist (p_low s) up;;
          Ok (mkDij (p_d s) (p_pred s) collist (p_low s) up (p_low s) min e)
        else Ok s);;
  match p_end s with
  | Some _ => Ok s
  | None => scan_column dim1 C v colsol s
  end.

Fixpoint dij_loop (fuel dim1 : nat) (C v : list T) (colsol : list (option nat))
    (s : dij) : res (dij * nat) :=
  match fuel with
  | O => OutOfFuel
  | S fuel =>
      s <- dij_step dim1 C v colsol s;;
      match p_end s with
      | Some e => Ok (s, e)
      | None => dij_loop fuel dim1 C v colsol s
      end
  end.

(** rlapjv.h:465-473: update column prices. *)
Definition update_prices (v : list T) (s : dij) : res (list T) :=
  for_loop (p_last s) 0
    (fun k v =>
       j1 <- get (p_collist s) k;;
       vj <- get v j1;;
       dj <- get (p_d s) j1;;
       set v j1 (nsub N (nadd N vj dj) (p_min s)))
    v.

(** rlapjv.h:475-486: flip the alternating path. *)
Fixpoint flip_path (fuel : nat) (pred : list nat) (freerow e : nat)
    (rowsol colsol : list (option nat))
  : res (list (option nat) * list (option nat)) :=
  match fuel with
  | O => OutOfFuel
  | S fuel =>
      i <- get pred e;;
      colsol <- set colsol e (Some i);;
      next <- get rowsol i;;
      rowsol <- set rowsol i (Some e);;
      if i =? freerow then Ok (rowsol, colsol)
      else e <- idx next;; flip_path fuel pred freerow e rowsol colsol
  end.

(** One augmentation, rlapjv.h:360-487. *)
Definition augment (dim0 dim1 : nat) (C : list T) (freerow : nat)
    (s : list (option nat) * list (option nat) * list T)
  : res (list (option nat) * list (option nat) * list T) :=
  let '(rowsol, colsol, v) := s in
  d <- for_loop dim1 0
         (fun j d =>
            c <- get C (freerow * dim1 + j);;
            vj <- get v j;;
            Ok (d ++ [nsub N c vj])) [];;
  '(st, e) <- dij_loop (S dim1) dim1 C v colsol
                (mkDij d (repeat freerow dim1) (seq 0 dim1) 0 0 0 (n0 N) None);;
  v <- update_prices v st;;
  '(rowsol, colsol) <- flip_path (S dim1) (p_pred st) freerow e rowsol colsol;;
  Ok (rowsol, colsol, v).

(** rlap, rlapjv.h:269-515.  [u] and [v] are the arrays passed in. *)
Definition rlap (fuel dim0 dim1 : nat) (C u v : list T)
  : res (list (option nat) * list (option nat) * list T * list T * T) :=
  (* 284-296 *)
  let s := mkArr (seq 0 dim0) (repeat None dim0) (repeat None dim1) v 0 dim0 in
  s <- arr_pass fuel dim1 C s;;
  s <- arr_pass fuel dim1 C s;;
  '(rowsol, colsol, v) <-
    for_loop (a_numfree s) 0
      (fun f st => i <- get (a_free s) f;; augment dim0 dim1 C i st)
      (a_rowsol s, a_colsol s, a_v s);;
  (* 493-509 *)
  '(u, c) <-
    for_loop dim0 0
      (fun i (st : list T * T) =>
         let '(u, c) := st in
         j <- get rowsol i;;
         match j with
         | Some j =>
             cij <- get C (i * dim1 + j);;
             vj <- get v j;;
             u <- set u i (nsub N cij vj);;
             Ok (u, nadd N c cij)
         | None => Ok (u, c)
         end)
      (u, n0 N);;
  Ok (rowsol, colsol, u, v, c).

(** [1 << row] with a 32-bit int: undefined for row >= 32 (rlapjv.h:536);
    for row = 31 the result is the sign bit, which no tested n has. *)
Definition bit_of (n row : nat) : res bool :=
  if 32 <=? row then UB else Ok (if row =? 31 then false else Nat.testbit n row).

(** __builtin_popcount of a non-negative int (rlapjv.h:517, 533). *)
Definition popcount (n : nat) : nat :=
  length (filter (Nat.testbit n) (seq 0 31)).

(** Row loop 535-544 of the neighbour count for one column; the state is the
    neighbour count and whether [goto nextn] was taken. *)
Definition hall_col (C : matrix T) (n popsize col : nat) (nb : nat)
  : res (nat * bool) :=
  for_break (m_rows C) 0
    (fun row s =>
       let '(nb, _) := s in
       b <- bit_of n row;;
       if b then
         c <- at_ C row col;;
         if negb (nisinf N c) then
           let nb := S nb in
           if nb <? popsize then Ok ((nb, false), true)
           else if nb =? popsize then Ok ((nb, true), true)
           else Ok ((nb, false), false)
         else Ok (s, false)
       else Ok (s, false))
    (nb, false).

(** rlapjv.h:532-545: is the subset [n] of rows adjacent to enough columns? *)
Definition hall_subset (C : matrix T) (n : nat) : res bool :=
  s <- for_break (m_cols C) 0
         (fun col (s : nat * bool) =>
            s <- hall_col C n (popcount n) col (fst s);;
            Ok (s, snd s))
         (0, false);;
  Ok (snd s).

(** rlapjv.h:531-551: loop over all subsets with [int n].  [n] runs from 1 to
    2^rows - 1.  With 31 or more rows the loop reaches INT_MAX and [++n]
    overflows (UB), unless some subset failed before. *)
Definition hall_check (C : matrix T) : res bool :=
  ok <- for_break (2 ^ (Nat.min (m_rows C) 31) - 1) 1
          (fun n (_ : bool) =>
             b <- hall_subset C n;;
             Ok (b, negb b))
          true;;
  if ok then if 31 <=? m_rows C then UB else Ok true
  else Ok false.

Record lap_result := mkLap {
  l_ok : bool;
  l_rowsol : list (option nat);
  l_u : list T;
  l_v : list T }.

(** lap with duals, rlapjv.h:519-559.  The solver is given [C.data()], which it
    reads as row-major whatever the storage order of [C] is. *)
Definition lap_build (fuel : nat) (C : matrix T) : res lap_result :=
  let rows := m_rows C in
  let cols := m_cols C in
  let u := repeat (n0 N) rows in
  let v := repeat (n0 N) cols in
  ok <- hall_check C;;
  if ok then
    '(rowsol, _, u, v, _) <- rlap fuel rows cols (m_data C) u v;;
    Ok (mkLap (forallb (fun j => match j with Some _ => true | None => false end)
                 rowsol) rowsol u v)
  else Ok (mkLap false (repeat (Some 0) rows) u v).

End Lap.

Section Portable.
Context {T : Type} (N : Num T).

(** lap compiled without AVX2; with it there is no difference for matrices of
    fewer than 100000 columns (rlapjv.h:64, 166), see [C13_builds_agree]. *)
Definition lap : nat -> matrix T -> res (lap_result (T := T)) := lap_build N false.

(** lap without duals, rlapjv.h:561-568. *)
Definition lap_simple (fuel : nat) (C : matrix T) : res (list (option nat)) :=
  r <- lap fuel C;; Ok (l_rowsol r).

(** cost, rlapjv.h:570-577. *)
Definition lap_cost (C : matrix T) (sol : list (option nat)) : res T :=
  for_loop (length sol) 0
    (fun i c => oj <- get sol i;; j <- idx oj;; x <- at_ C i j;; Ok (nadd N c x))
    (n0 N).
End Portable.
