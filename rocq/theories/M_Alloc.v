(** Allocation and release in new_presolver and free_presolver (src/core/Presolver.c, Workspace.c,
    Matrix.c, State.c, Postsolver.c, Problem.c, Constraints.c, include/data_structures/Vec_macros.h).

    Only pointers are modelled: a block is a record of pointer fields, [Touch] stands for any read or
    write of its plain data.  Every allocation site runs at most once, so a block is named by its
    site.  Which allocations fail is an arbitrary set of sites; which loops run at least once and which
    vectors outgrow their first capacity is asked from an arbitrary [answer].  Freeing a block that is
    not live, touching NULL, a freed block or an uninitialised pointer is undefined behaviour ([UB]).
    The second thread runs to its end before the main thread goes on (C12: the order does not matter). *)
From Coq Require Import List Bool.
Import ListNotations.

Inductive vec := ston_rows | ston_cols | dton_rows | empty_cols | empty_rows | updated_acts | fixed_del | sub_del | rows_del
  | starts | indices | vals | types | int_vec.
Inductive site :=
  | s_lhs | s_rhs | s_c | s_ctags | s_bounds | s_rsz | s_csz
  | s_work | s_iw1 | s_iw2 | s_iw3 | s_iw4 | s_map | s_map_cols | s_map_rows
  | s_A | s_A_i | s_A_p | s_A_x | s_AT | s_AT_i | s_AT_p | s_AT_x
  | s_rtags | s_locks | s_acts
  | s_state | s_info | s_vec (v : vec) | s_vec_data (v : vec) | s_vec_more (v : vec)
  | s_cons | s_pres | s_obj | s_prob | s_stats | s_red | s_sol | s_sol_x | s_sol_y | s_sol_z.
Inductive field :=
  | f_i | f_p | f_x                                             (* Matrix *)
  | f_data                                                      (* Vec *)
  | f_iw1 | f_iw2 | f_iw3 | f_iw4 | f_int_vec | f_map | f_cols | f_rows  (* Work, Mapping *)
  | f_v (v : vec) | f_info | f_locks | f_rsz | f_csz | f_acts | f_work  (* State *)
  | f_lhs | f_rhs | f_A | f_AT | f_bounds | f_state | f_rtags | f_ctags (* Constraints *)
  | f_cons | f_obj | f_c                                        (* Problem, Objective *)
  | f_prob | f_stats | f_red | f_sol | f_Ap | f_lbs | f_ubs | f_sx | f_sy | f_sz. (* Presolver *)
Scheme Equality for vec.
Scheme Equality for site.
Scheme Equality for field.
Inductive ptr := Null | Junk | Blk (b : site).
Inductive question := has_rows | has_cols | has_entries | appends (v : vec) | grows (v : vec).

Inductive cmd (A : Type) :=
| Ret (a : A)
| Malloc (s : site) (zeroed : bool) (k : ptr -> cmd A)
| Get (p : ptr) (f : field) (k : ptr -> cmd A)      (* p->f *)
| Put (p : ptr) (f : field) (v : ptr) (k : cmd A)   (* p->f = v *)
| Touch (p : ptr) (k : cmd A)
| TouchIf (q : question) (p : ptr) (k : cmd A)       (* only when the answer is yes *)
| Free (p : ptr) (k : cmd A)
| Ask (q : question) (k : bool -> cmd A)
| Quit.                                              (* exit(1) *)
Arguments Ret {A}. Arguments Malloc {A}. Arguments Get {A}. Arguments Put {A}. Arguments Touch {A}. Arguments TouchIf {A}. Arguments Free {A}. Arguments Ask {A}. Arguments Quit {A}.
Fixpoint bind {A B} (c : cmd A) (g : A -> cmd B) : cmd B :=
  match c with
  | Ret a => g a
  | Malloc s z k => Malloc s z (fun p => bind (k p) g)
  | Get p f k => Get p f (fun v => bind (k v) g)
  | Put p f v k => Put p f v (bind k g)
  | Touch p k => Touch p (bind k g)
  | TouchIf q p k => TouchIf q p (bind k g)
  | Free p k => Free p (bind k g)
  | Ask q k => Ask q (fun b => bind (k b) g)
  | Quit => Quit
  end.
Notation "x <- c ;; k" := (bind c (fun x => k)) (at level 61, c at next level, right associativity).
Notation "c ;; k" := (bind c (fun _ => k)) (at level 61, right associativity).
Definition malloc s : cmd ptr := Malloc s false Ret.
Definition calloc s : cmd ptr := Malloc s true Ret.
Definition get p f : cmd ptr := Get p f Ret.
Definition put p f v : cmd unit := Put p f v (Ret tt).
Definition touch p : cmd unit := Touch p (Ret tt).
Definition free p : cmd unit := Free p (Ret tt).
Definition ask q : cmd bool := Ask q Ret.
Definition nop : cmd unit := Ret tt.
Definition null (p : ptr) : bool := match p with Null => true | _ => false end.
(** PS_FREE(p->f) *)
Definition ps_free p f : cmd unit := x <- get p f;; free x;; put p f Null.
Definition if_some q p : cmd unit := TouchIf q p (Ret tt).

(** ** Vec_macros.h:45-67, 75-94 *)
Definition vec_new (v : vec) : cmd ptr :=
  p <- malloc (s_vec v);; if null p then Ret Null else
  d <- malloc (s_vec_data v);; put p f_data d;;
  if null d then free p;; Ret Null else touch p;; Ret p.
Definition vec_free (p : ptr) : cmd unit := ps_free p f_data;; free p.
(** all appends of one loop; at most one growth of the buffer is distinguished *)
Definition vec_append (v : vec) (p : ptr) : cmd unit :=
  if_some (appends v) p;;
  if null p then nop else          (* an append to NULL has crashed on the line above; nothing to append: nothing happens *)
  g <- ask (grows v);; d <- get p f_data;;
  if g then n <- malloc (s_vec_more v);;
    if null n then vec_free p;; Quit else free d;; put p f_data n;; touch n
  else if_some (appends v) d.

(** ** Workspace.c:26-52, 54-70 *)
Definition free_work (w : ptr) : cmd unit :=
  if null w then nop else
  ps_free w f_iw1;; ps_free w f_iw2;; ps_free w f_iw3;; ps_free w f_iw4;;
  v <- get w f_int_vec;; vec_free v;;
  m <- get w f_map;; ps_free m f_cols;; m <- get w f_map;; ps_free m f_rows;; ps_free w f_map;; free w.
Definition new_work : cmd ptr :=
  w <- malloc s_work;; if null w then Ret Null else
  a <- calloc s_iw1;; put w f_iw1 a;; b <- calloc s_iw2;; put w f_iw2 b;;
  c <- calloc s_iw3;; put w f_iw3 c;; d <- calloc s_iw4;; put w f_iw4 d;;
  v <- vec_new int_vec;; put w f_int_vec v;;
  m <- malloc s_map;; put w f_map m;;
  mc <- malloc s_map_cols;; put m f_cols mc;; mr <- malloc s_map_rows;; put m f_rows mr;;
  if null a || null b || null c || null d || null v || null m || null mc || null mr
  then free_work w;; Ret Null else Ret w.

(** ** Matrix.c:58-85 (matrix_alloc) and 87-117 (matrix_new_no_extra_space), 189-199 (free_matrix) *)
Definition free_matrix (p : ptr) : cmd unit :=
  (if null p then nop else ps_free p f_i;; ps_free p f_p;; ps_free p f_x);; free p.
Definition new_matrix (s si sp sx : site) : cmd ptr :=
  p <- malloc s;; if null p then Ret Null else touch p;;
  i <- malloc si;; put p f_i i;; r <- malloc sp;; put p f_p r;; x <- malloc sx;; put p f_x x;;
  if null i || null r || null x then free_matrix p;; Ret Null
  else if_some has_entries x;; if_some has_entries i;; touch r;; Ret p.

(** ** Postsolver.c:38-82 *)
Definition postsolve_info_new : cmd ptr :=
  p <- malloc s_info;;
  a <- vec_new starts;; put p (f_v starts) a;; b <- vec_new indices;; put p (f_v indices) b;;
  c <- vec_new vals;; put p (f_v vals) c;; d <- vec_new types;; put p (f_v types) d;;
  if null a || null b || null c || null d
  then ps_free p (f_v starts);; ps_free p (f_v indices);; ps_free p (f_v vals);; ps_free p (f_v types);; free p;; Ret Null
  else touch a;; x <- get a f_data;; touch x;; Ret p.
Definition postsolve_info_free (p : ptr) : cmd unit :=
  if null p then nop else
  a <- get p (f_v starts);; vec_free a;; b <- get p (f_v indices);; vec_free b;;
  c <- get p (f_v vals);; vec_free c;; d <- get p (f_v types);; vec_free d;; free p.

(** ** State.c:47-152, 154-174 *)
Definition free_vec_field (p : ptr) (v : vec) : cmd unit := x <- get p (f_v v);; vec_free x.
Definition free_state (p : ptr) : cmd unit :=
  if null p then nop else
  free_vec_field p ston_rows;; free_vec_field p ston_cols;; free_vec_field p dton_rows;; free_vec_field p empty_cols;;
  free_vec_field p empty_rows;; free_vec_field p updated_acts;; free_vec_field p fixed_del;; free_vec_field p sub_del;;
  free_vec_field p rows_del;; i <- get p f_info;; postsolve_info_free i;; free p.
Definition new_state (rsz csz locks acts work rtags : ptr) : cmd ptr :=
  p <- malloc s_state;; if null p then Ret Null else
  put p f_locks locks;; put p f_rsz rsz;; put p f_csz csz;; put p f_acts acts;; put p f_work work;;
  a <- vec_new ston_rows;; put p (f_v ston_rows) a;; b <- vec_new ston_cols;; put p (f_v ston_cols) b;;
  c <- vec_new dton_rows;; put p (f_v dton_rows) c;; d <- vec_new empty_cols;; put p (f_v empty_cols) d;;
  e <- vec_new empty_rows;; put p (f_v empty_rows) e;; u <- vec_new updated_acts;; put p (f_v updated_acts) u;;
  f <- vec_new fixed_del;; put p (f_v fixed_del) f;; g <- vec_new sub_del;; put p (f_v sub_del) g;;
  h <- vec_new rows_del;; put p (f_v rows_del) h;; i <- postsolve_info_new;; put p f_info i;;
  if null a || null b || null c || null d || null e || null f || null g || null h || null i
  then free_state p;; Ret Null else
  if_some has_rows rsz;; vec_append empty_rows e;; vec_append ston_rows a;; vec_append dton_rows c;;
  if_some has_cols csz;; vec_append empty_cols d;; vec_append ston_cols b;;
  if_some has_rows acts;; vec_append updated_acts u;;
  Ret p.

(** ** Constraints.c (constraints_new, free_constraints), Problem.c:27-74 *)
Definition constraints_new (A AT lhs rhs bounds st rtags ctags : ptr) : cmd ptr :=
  p <- malloc s_cons;; if null p then Ret Null else
  put p f_lhs lhs;; put p f_rhs rhs;; touch A;; put p f_A A;; put p f_AT AT;; put p f_bounds bounds;; put p f_state st;;
  put p f_rtags rtags;; put p f_ctags ctags;; Ret p.
Definition free_constraints (p : ptr) : cmd unit :=
  if null p then nop else
  ps_free p f_lhs;; ps_free p f_rhs;; a <- get p f_A;; free_matrix a;; b <- get p f_AT;; free_matrix b;;
  ps_free p f_bounds;; ps_free p f_rtags;; ps_free p f_ctags;; free p.
Definition objective_new (c : ptr) : cmd ptr := p <- malloc s_obj;; if null p then Ret Null else put p f_c c;; Ret p.
Definition free_objective (p : ptr) : cmd unit := if null p then nop else ps_free p f_c;; free p.
Definition new_problem (cons obj : ptr) : cmd ptr := p <- malloc s_prob;; if null p then Ret Null else put p f_cons cons;; put p f_obj obj;; Ret p.
Definition free_problem (p : ptr) : cmd unit :=
  if null p then nop else
  c <- get p f_cons;; if null c then nop else
  d <- get c f_state;;
  (if null d then nop else
   w <- get d f_work;; free_work w;; ps_free d f_locks;; ps_free d f_acts;; ps_free d f_rsz;; ps_free d f_csz;; free_state d);;
  free_constraints c;; o <- get p f_obj;; free_objective o;; free p.

(** ** Presolver.c:781-808 *)
Definition free_presolver (p : ptr) : cmd unit :=
  if null p then nop else
  x <- get p f_prob;; free_problem x;; ps_free p f_stats;;
  r <- get p f_red;;
  (if null r then nop else ps_free r f_Ap;; ps_free r f_lbs;; ps_free r f_ubs;; ps_free p f_red);;
  s <- get p f_sol;;
  (if null s then nop else ps_free s f_sx;; ps_free s f_sy;; ps_free s f_sz;; ps_free p f_sol);;
  free p.
(** Presolver.c:62-69 *)
Definition init_stats : cmd ptr := p <- calloc s_stats;; touch p;; Ret p.

(** Presolver.c:191-210 *)
Definition clean_up (A AT lhs rhs c rsz csz rtags locks acts data cons pres obj ctags bounds work : ptr) : cmd ptr :=
  free_matrix A;; free_matrix AT;; free lhs;; free rhs;; free c;; free rsz;; free csz;; free rtags;; free ctags;; free bounds;;
  free acts;; free locks;; free_work work;; free_state data;; free_constraints cons;; free_objective obj;; free_presolver pres;;
  Ret Null.

(** Presolver.c:116-144: row_tags, locks, activities *)
Definition init_thread (ctags bounds rsz : ptr) : cmd (ptr * ptr * ptr) :=
  t <- calloc s_rtags;; (if null t then nop else if_some has_rows t);;
  if_some has_cols bounds;; if_some has_cols ctags;;
  l <- calloc s_locks;; (if null l then nop else if_some has_entries t;; if_some has_entries l);;
  a <- malloc s_acts;; (if null a then nop else if_some has_rows a;; if_some has_entries ctags);;
  if_some has_rows rsz;;
  Ret (t, l, a).

(** Presolver.c:212-351 *)
Definition new_presolver : cmd ptr :=
  lhs <- malloc s_lhs;; rhs <- malloc s_rhs;; c <- malloc s_c;; ctags <- calloc s_ctags;; bounds <- malloc s_bounds;;
  work <- new_work;; rsz <- malloc s_rsz;; csz <- malloc s_csz;;
  if null lhs || null rhs || null c || null ctags || null bounds || null work || null rsz || null csz
  then clean_up Null Null lhs rhs c rsz csz Null Null Null Null Null Null Null ctags bounds work else
  if_some has_rows lhs;; if_some has_rows rhs;; if_some has_cols c;;
  A <- new_matrix s_A s_A_i s_A_p s_A_x;;
  if null A then clean_up Null Null lhs rhs c rsz csz Null Null Null Null Null Null Null ctags bounds work else
  r <- init_thread ctags bounds rsz;;
  iw <- get work f_iw1;; AT <- new_matrix s_AT s_AT_i s_AT_p s_AT_x;;
  if null AT then clean_up A Null lhs rhs c rsz csz Null Null Null Null Null Null Null ctags bounds work else
  if_some has_cols iw;; if_some has_cols csz;;
  let '(rtags, locks, acts) := r in
  if null rtags then clean_up A AT lhs rhs c rsz csz Null Null Null Null Null Null Null ctags bounds work else
  if null locks || null acts then clean_up A AT lhs rhs c rsz csz rtags locks acts Null Null Null Null ctags bounds work else
  data <- new_state rsz csz locks acts work rtags;;
  if null data then clean_up A AT lhs rhs c rsz csz rtags locks acts Null Null Null Null ctags bounds work else
  cons <- constraints_new A AT lhs rhs bounds data rtags ctags;;
  if null cons then clean_up A AT lhs rhs c rsz csz rtags locks acts data Null Null Null ctags bounds work else
  pres <- malloc s_pres;; obj <- objective_new c;;
  if null pres || null obj then clean_up A AT lhs rhs c rsz csz rtags locks acts data cons pres obj ctags bounds work else
  prob <- new_problem cons obj;; put pres f_prob prob;;
  stats <- init_stats;; put pres f_stats stats;;
  red <- calloc s_red;; put pres f_red red;;
  sol <- malloc s_sol;; put pres f_sol sol;;
  if null sol then clean_up A AT lhs rhs c rsz csz rtags locks acts data cons pres obj ctags bounds work else
  x <- malloc s_sol_x;; put sol f_sx x;; y <- malloc s_sol_y;; put sol f_sy y;; z <- malloc s_sol_z;; put sol f_sz z;;
  if null x || null y || null z then clean_up A AT lhs rhs c rsz csz rtags locks acts data cons pres obj ctags bounds work else
  touch stats;; Ret pres.

(** ** Execution *)
Record heap := mkHeap { live : list site; flds : list (site * field * ptr); zero : list site }.
Definition empty_heap : heap := mkHeap [] [] [].
Inductive why := null_deref | wild_pointer | use_after_free | double_free.
Inductive outcome (A : Type) := Returns (a : A) (h : heap) | UB (w : why) | Exits.
Arguments Returns {A}. Arguments UB {A}. Arguments Exits {A}.
Definition is_live (h : heap) (b : site) : bool := existsb (site_beq b) (live h).
Definition bad_access (h : heap) (p : ptr) : option why :=
  match p with
  | Null => Some null_deref | Junk => Some wild_pointer
  | Blk b => if is_live h b then None else Some use_after_free
  end.
Definition field_of (h : heap) (b : site) (f : field) : ptr :=
  match List.find (fun e => site_beq b (fst (fst e)) && field_beq f (snd (fst e))) (flds h) with
  | Some (_, v) => v
  | None => if existsb (site_beq b) (zero h) then Null else Junk
  end.
Definition the_block (p : ptr) : site := match p with Blk b => b | _ => s_lhs end.
Definition remove_live (b : site) (h : heap) : heap := mkHeap (List.filter (fun x => negb (site_beq b x)) (live h)) (flds h) (zero h).

Section Run.
Variables (ok : site -> bool) (answer : question -> bool).
Fixpoint run {A} (c : cmd A) (h : heap) : outcome A :=
  match c with
  | Ret a => Returns a h
  | Malloc s z k => if ok s then run (k (Blk s)) (mkHeap (s :: live h) (flds h) (if z then s :: zero h else zero h)) else run (k Null) h
  | Get p f k => match bad_access h p with Some w => UB w | None => run (k (field_of h (the_block p) f)) h end
  | Put p f v k => match bad_access h p with Some w => UB w
      | None => run k (mkHeap (live h) ((the_block p, f, v) :: flds h) (zero h)) end
  | Touch p k => match bad_access h p with Some w => UB w | None => run k h end
  | TouchIf q p k => if answer q then match bad_access h p with Some w => UB w | None => run k h end else run k h
  | Free p k => match p with
      | Null => run k h
      | Junk => UB wild_pointer
      | Blk b => if is_live h b then run k (remove_live b h) else UB double_free
      end
  | Ask q k => run (k (answer q)) h
  | Quit => Exits
  end.
End Run.
