(** Activities of rows (src/core/Activity.c). *)
From Verif Require Import M_Num S_LP M_State.

Section Row.
Variables (lbs ubs : nat -> ext) (tags : nat -> coltag).

(** Infinite contributions of one row.  src/core/Activity.c:48-75 (= 165-192) *)
Fixpoint count_inf_max (r : row) : Z :=
  match r with
  | [] => 0%Z
  | (j, a) :: r' =>
      ((if Qgtb a 0 then (if t_ub_inf (tags j) then 1 else 0)
        else (if t_lb_inf (tags j) then 1 else 0)) + count_inf_max r')%Z
  end.
Fixpoint count_inf_min (r : row) : Z :=
  match r with
  | [] => 0%Z
  | (j, a) :: r' =>
      ((if Qgtb a 0 then (if t_lb_inf (tags j) then 1 else 0)
        else (if t_ub_inf (tags j) then 1 else 0)) + count_inf_min r')%Z
  end.

(** src/core/Activity.c:299-317, 319-337 *)
Fixpoint compute_min_act_no_tags (r : row) : Q :=
  match r with
  | [] => 0
  | (j, a) :: r' =>
      (if Qgtb a 0 then a * fin (lbs j) else a * fin (ubs j)) + compute_min_act_no_tags r'
  end.
Fixpoint compute_max_act_no_tags (r : row) : Q :=
  match r with
  | [] => 0
  | (j, a) :: r' =>
      (if Qgtb a 0 then a * fin (ubs j) else a * fin (lbs j)) + compute_max_act_no_tags r'
  end.

(** src/core/Activity.c:247-271, 273-297 *)
Fixpoint compute_min_act_tags (r : row) : Q :=
  match r with
  | [] => 0
  | (j, a) :: r' =>
      (if Qgtb a 0 then (if t_lb_inf (tags j) then 0 else a * fin (lbs j))
       else (if t_ub_inf (tags j) then 0 else a * fin (ubs j))) + compute_min_act_tags r'
  end.
Fixpoint compute_max_act_tags (r : row) : Q :=
  match r with
  | [] => 0
  | (j, a) :: r' =>
      (if Qgtb a 0 then (if t_ub_inf (tags j) then 0 else a * fin (ubs j))
       else (if t_lb_inf (tags j) then 0 else a * fin (lbs j))) + compute_max_act_tags r'
  end.

(** src/core/Activity.c:339-363, 365-389 *)
Fixpoint compute_min_act_one_tag (k : nat) (r : row) : Q :=
  match r with
  | [] => 0
  | (j, a) :: r' =>
      (if Nat.eqb j k then 0
       else if Qgtb a 0 then a * fin (lbs j) else a * fin (ubs j)) + compute_min_act_one_tag k r'
  end.
Fixpoint compute_max_act_one_tag (k : nat) (r : row) : Q :=
  match r with
  | [] => 0
  | (j, a) :: r' =>
      (if Nat.eqb j k then 0
       else if Qgtb a 0 then a * fin (ubs j) else a * fin (lbs j)) + compute_max_act_one_tag k r'
  end.

(** src/core/Activity.c:155-245 (new_activities, 27-131, is the same for every row) *)
Definition Activity_init (r : row) : activity :=
  let nmin := count_inf_min r in
  let nmax := count_inf_max r in
  Act (if Z.eqb nmin 0 then compute_min_act_no_tags r else 0)
      (if Z.eqb nmax 0 then compute_max_act_no_tags r else 0) nmin nmax NOT_ADDED.

(** src/core/Activity.c:793-834 *)
Fixpoint count_inf_max_active (r : row) : Z :=
  match r with
  | [] => 0%Z
  | (j, a) :: r' =>
      ((if t_cinact (tags j) then 0
        else if Qgtb a 0 then (if t_ub_inf (tags j) then 1 else 0)
        else (if t_lb_inf (tags j) then 1 else 0)) + count_inf_max_active r')%Z
  end.
Fixpoint count_inf_min_active (r : row) : Z :=
  match r with
  | [] => 0%Z
  | (j, a) :: r' =>
      ((if t_cinact (tags j) then 0
        else if Qgtb a 0 then (if t_lb_inf (tags j) then 1 else 0)
        else (if t_ub_inf (tags j) then 1 else 0)) + count_inf_min_active r')%Z
  end.
Definition recompute_n_infs (a : activity) (r : row) : activity :=
  Act (a_min a) (a_max a) (count_inf_min_active r) (count_inf_max_active r) (a_st a).

(** Changing one side of an activity when a bound of a variable with coefficient [coeff] goes
    from [old] to [new]; the two copies of the same four statements in
    src/core/Activity.c:391-482.  [finite] says whether the old bound was finite. *)
Definition max_change (a : activity) (coeff : Q) (old : ext) (new : Q) (finite : bool) (r : row)
  : activity :=
  if Z.eqb (n_inf_max a) 0 then
    Act (a_min a) (a_max a + (new - fin old) * coeff) (n_inf_min a) (n_inf_max a) (a_st a)
  else if negb finite then
    let n := (n_inf_max a - 1)%Z in
    Act (a_min a) (if Z.eqb n 0 then compute_max_act_no_tags r else a_max a)
        (n_inf_min a) n (a_st a)
  else a.
Definition min_change (a : activity) (coeff : Q) (old : ext) (new : Q) (finite : bool) (r : row)
  : activity :=
  if Z.eqb (n_inf_min a) 0 then
    Act (a_min a + (new - fin old) * coeff) (a_max a) (n_inf_min a) (n_inf_max a) (a_st a)
  else if negb finite then
    let n := (n_inf_min a - 1)%Z in
    Act (if Z.eqb n 0 then compute_min_act_no_tags r else a_min a) (a_max a)
        n (n_inf_max a) (a_st a)
  else a.

(** src/core/Activity.c:391-482; the result bits are (MAX_ALTERED, MIN_ALTERED) *)
Definition update_act_bound_change (a : activity) (coeff : Q) (old : ext) (new : Q)
           (finite lower : bool) (r : row) : activity * (bool * bool) :=
  if lower then
    if Qltb coeff 0 then (max_change a coeff old new finite r, (true, false))
    else (min_change a coeff old new finite r, (false, true))
  else
    if Qltb coeff 0 then (min_change a coeff old new finite r, (false, true))
    else (max_change a coeff old new finite r, (true, false)).
End Row.

(** Marking a row whose activity has become useful; src/core/Activity.c:505-518 (= 555-568) *)
Definition note_altered (i : nat) (alt : bool * bool) (s : state) : state :=
  let a := acts s i in
  if (Z.eqb (n_inf_max a) 0 && fst alt) || (Z.eqb (n_inf_min a) 0 && snd alt) then
    match a_st a with
    | NOT_ADDED =>
        push_acts i (set_act1 i (Act (a_min a) (a_max a) (n_inf_min a) (n_inf_max a) ADDED) s)
    | PROPAGATED_THIS_ROUND =>
        push_acts i (set_act1 i (Act (a_min a) (a_max a) (n_inf_min a) (n_inf_max a)
                                     PROPAGATE_NEXT_ROUND) s)
    | _ => s
    end
  else s.

(** src/core/Activity.c:484-520; [col] are the entries of the column in AT, [old] the previous
    bound, [finite] whether it was finite.  The bound in the state is the new one already. *)
Definition update_activities_bound_change (col : row) (old : ext) (new : Q) (finite lower : bool)
  : state -> state :=
  foldS (fun s e =>
    let i := fst e in
    let '(a, alt) := update_act_bound_change (lb s) (ub s) (acts s i) (snd e) old new finite
                                             lower (mA s i) in
    note_altered i alt (set_act1 i a s)) col.

(** src/core/Activity.c:522-570 *)
Definition update_activities_fixed_col (col : row) (old_ub old_lb : ext) (val : Q)
           (ub_update lb_update is_ub_inf is_lb_inf : bool) : state -> state :=
  foldS (fun s e =>
    let i := fst e in
    let '(a1, alt1) :=
      if ub_update then update_act_bound_change (lb s) (ub s) (acts s i) (snd e) old_ub val
                                                (negb is_ub_inf) false (mA s i)
      else (acts s i, (false, false)) in
    let '(a2, alt2) :=
      if lb_update then update_act_bound_change (lb s) (ub s) a1 (snd e) old_lb val
                                                (negb is_lb_inf) true (mA s i)
      else (a1, (false, false)) in
    note_altered i (fst alt1 || fst alt2, snd alt1 || snd alt2) (set_act1 i a2 s)) col.

(** Result of update_activity_coeff_change: which side must be recomputed from scratch. *)
Inductive recompute := NO_RECOMPUTE | MAX_RECOMPUTE | MIN_RECOMPUTE.

(** Adding ([sg] = 1) or removing ([sg] = -1) the contribution of coefficient [c] to the two
    sides; the blocks of src/core/Activity.c:586-637 and 642-693. *)
Definition contrib (sg : Z) (a : activity) (c : Q) (l u : ext) (t : coltag) : activity :=
  let addmin (a : activity) (inf : bool) (b : ext) :=
    if inf then Act (a_min a) (a_max a) (n_inf_min a + sg)%Z (n_inf_max a) (a_st a)
    else if Z.eqb (n_inf_min a) 0
         then Act (a_min a + inject_Z sg * (c * fin b)) (a_max a) (n_inf_min a) (n_inf_max a)
                  (a_st a)
         else a in
  let addmax (a : activity) (inf : bool) (b : ext) :=
    if inf then Act (a_min a) (a_max a) (n_inf_min a) (n_inf_max a + sg)%Z (a_st a)
    else if Z.eqb (n_inf_max a) 0
         then Act (a_min a) (a_max a + inject_Z sg * (c * fin b)) (n_inf_min a) (n_inf_max a)
                  (a_st a)
         else a in
  if Qgtb c 0 then addmax (addmin a (t_lb_inf t) l) (t_ub_inf t) u
  else if Qltb c 0 then addmin (addmax a (t_lb_inf t) l) (t_ub_inf t) u
  else a.

(** src/core/Activity.c:572-719 *)
Definition update_activity_coeff_change (a : activity) (l u : ext) (old new : Q) (t : coltag)
  : activity * recompute :=
  let a' := contrib 1 (contrib (-1) a old l u t) new l u t in
  (a', if Z.eqb (n_inf_min a') 0 && Z.eqb (n_inf_min a) 1 then MIN_RECOMPUTE
       else if Z.eqb (n_inf_max a') 0 && Z.eqb (n_inf_max a) 1 then MAX_RECOMPUTE
       else NO_RECOMPUTE).

(** src/core/Activity.c:721-755 and 757-791 *)
Definition remove_finite_lb_from_activities (col : row) (bound : Q) : state -> state :=
  foldS (fun s e =>
    let '(i, v) := e in let a := acts s i in
    if Qgtb v 0 then
      set_act1 i (Act (if Z.eqb (n_inf_min a) 0 then a_min a - v * bound else a_min a) (a_max a)
                      (n_inf_min a + 1)%Z (n_inf_max a) (a_st a)) s
    else if Qltb v 0 then
      set_act1 i (Act (a_min a) (if Z.eqb (n_inf_max a) 0 then a_max a - v * bound else a_max a)
                      (n_inf_min a) (n_inf_max a + 1)%Z (a_st a)) s
    else s) col.
Definition remove_finite_ub_from_activities (col : row) (bound : Q) : state -> state :=
  foldS (fun s e =>
    let '(i, v) := e in let a := acts s i in
    if Qgtb v 0 then
      set_act1 i (Act (a_min a) (if Z.eqb (n_inf_max a) 0 then a_max a - v * bound else a_max a)
                      (n_inf_min a) (n_inf_max a + 1)%Z (a_st a)) s
    else if Qltb v 0 then
      set_act1 i (Act (if Z.eqb (n_inf_min a) 0 then a_min a - v * bound else a_min a) (a_max a)
                      (n_inf_min a + 1)%Z (n_inf_max a) (a_st a)) s
    else s) col.
