fields=[
("nr","nat","constraints->m"),("nc","nat","constraints->n"),
("mA","nat -> row","A: row i as the list of its stored entries A->i, A->x in [p[i].start, p[i].end)"),
("mAT","nat -> row","AT: column k likewise"),
("lhs","nat -> ext","constraints->lhs"),("rhs","nat -> ext","constraints->rhs"),
("lb","nat -> ext","bounds[k].lb"),("ub","nat -> ext","bounds[k].ub"),
("rt","nat -> rowtag","row_tags"),("ct","nat -> coltag","col_tags"),
("rsz","nat -> Z","state->row_sizes"),("csz","nat -> Z","state->col_sizes"),
("ups","nat -> Z","col_locks[k].up"),("dns","nat -> Z","col_locks[k].down"),
("acts","nat -> activity","state->activities"),
("cst","nat -> Q","obj->c"),("off","Q","obj->offset"),
("nnz","Z","A->nnz (AT->nnz is a copy of it)"),
("w_ston_rows","list nat","state->ston_rows"),("w_ston_cols","list nat","state->ston_cols"),
("w_dton","list nat","state->dton_rows"),("w_empty_rows","list nat","state->empty_rows"),
("w_empty_cols","list nat","state->empty_cols"),("w_acts","list nat","state->updated_activities"),
("w_fixed","list nat","state->fixed_cols_to_delete"),("w_sub","list nat","state->sub_cols_to_delete"),
("w_rows","list nat","state->rows_to_delete"),
("stale","nat -> nat","column stored at A->i[p[i].start] when row i has become empty"),
("tick","nat","number of answers taken from the space oracle (M_Dton.v)"),
("bad","bool","set when the code would read an entry that does not exist, or a loop of the model ran out of fuel"),
("tiny","bool","ghost, never read: set when a coefficient of absolute value at most ZERO_TOL is written for a column that is not in the row (M_Dton.v)"),
("log","list reduction","postsolve_info, newest record first"),
]
o=[]
o.append("Record state := mkState {")
o.append(";\n".join("  %s : %s  (* %s *)"%f for f in fields).replace("  (*"," (*"))
o[-1]=o[-1]+" }."
out=[]
lines=[]
for k,(n,t,c) in enumerate(fields):
    lines.append("  %s : %s%s%s (* %s *)"%(n,t,";" if k<len(fields)-1 else "", "", c))
print("Record state := mkState {"); print("\n".join(lines)); print("}.\n")
print("(** Writes to one component (record update). *)")
for n,t,c in fields:
    if n in("nr","nc"): continue
    args=" ".join("v" if m==n else "(%s s)"%m for m,_,_ in fields)
    print("Definition set_%s (v : %s) (s : state) : state :=\n  mkState %s."%(n,t,args))
