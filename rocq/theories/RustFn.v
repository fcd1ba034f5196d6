(** Functions that call one another in the last place, as the functional one-pass engine has them
    ([ere-core/src/engines/one_pass_u8.rs:641-1130]): syntax, evaluation and checks, on top of Rust.v.
    Simplifications: [return a && f(..)] is written as [if a { return f(..) } else { return false }];
    [return match bytes.next() { .. }] is written as a match whose arms return. *)
From Verif Require Export Rust.
Open Scope nat_scope.
Open Scope list_scope.

Inductive fstmt :=
| FS (s : stmt)
| FIf (a : rexp) (l m : list fstmt)
  (* [let Some((run_part, rest)) = bytes.as_slice().split_at_checked(n) else { l };] *)
| FSplit (n : nat) (l : list fstmt)
  (* [match bytes.next() { None => none, Some(lo..=hi) if g => body, .., Some(_) => other }] *)
| FNext (none : list fstmt) (arms : list (range * option rexp * list fstmt)) (other : list fstmt)
| FGo (f : nat) (args : list rexp)      (* [return func_state_f(args);] *)
| FError.                               (* [compile_error!(..)], and what cannot be parsed *)
(** A state function with its number and parameters; all have the same result type.  The main function. *)
Record sfun := mkSfun { sf_id : nat; sf_args : list (var * ty); sf_body : list fstmt }.
Record prog := mkProg { g_states : list sfun; g_result : ty; g_body : list fstmt }.

(** ** Evaluation *)
Inductive outcome := Ret (v : val) | Go (f : nat) (vs : list val).
Section Eval.
  Variable text : list N.
  Definition fleave (e : env) (r : res (env + outcome)) : res (env + outcome) :=
    do o <- r; Ok (match o with inl e' => inl (skipn (length e' - length e) e') | inr v => inr v end).
  Fixpoint fexec (s : fstmt) (e : env) {struct s} : res (env + outcome) :=
    let fblock := fix fblock (l : list fstmt) (e : env) {struct l} : res (env + outcome) :=
      match l with
      | [] => Ok (inl e)
      | s :: r => do o <- fexec s e; match o with inl e' => fblock r e' | inr v => Ok (inr v) end
      end in
    match s with
    | FS s => do o <- exec text no_call s e; Ok (match o with inl e' => inl e' | inr v => inr (Ret v) end)
    | FIf a l m => do v <- eval text e a; do b <- as_bool v; fleave e (fblock (if b then l else m) e)
    | FSplit n l =>
        do v <- getv Xbytes e; do bs <- as_list v;
        if n <=? length bs then Ok (inl ((Xrest, VArr (skipn n bs)) :: (Xrun_part, VArr (firstn n bs)) :: e))
        else do o <- fblock l e; match o with inr v => Ok (inr v) | inl _ => NoCompile end
    | FNext none arms other =>
        do v <- getv Xbytes e; do bs <- as_list v;
        match bs with
        | [] => fleave e (fblock none e)
        | VByte c :: rest =>
            let e := assign Xbytes (VArr rest) e in
            (fix try (arms : list (range * option rexp * list fstmt)) : res (env + outcome) :=
               match arms with
               | [] => fleave e (fblock other e)
               | (r, g, l) :: arms' =>
                   if in_range c r
                   then do ok <- match g with None => Ok true | Some g => do x <- eval text e g; as_bool x end;
                        if ok then fleave e (fblock l e) else try arms'
                   else try arms'
               end) arms
        | _ => NoCompile
        end
    | FGo f args => do vs <- mapM (eval text e) args; Ok (inr (Go f vs))
    | FError => NoCompile
    end.
  Fixpoint fblock (l : list fstmt) (e : env) {struct l} : res (env + outcome) :=
    match l with
    | [] => Ok (inl e)
    | s :: r => do o <- fexec s e; match o with inl e' => fblock r e' | inr v => Ok (inr v) end
    end.
  (** Calling a state function.  [fuel] bounds the number of calls: every call takes a byte. *)
  Fixpoint go (fuel : nat) (fs : list sfun) (f : nat) (vs : list val) : res val :=
    match fuel with
    | O => Fuel
    | S k =>
        match find (fun sf => sf_id sf =? f) fs with
        | None => NoCompile
        | Some sf =>
            do e <- bind_params (sf_args sf) vs [];
            do o <- fblock (sf_body sf) e;
            match o with
            | inl _ => NoCompile
            | inr (Ret v) => Ok v
            | inr (Go g ws) => go k fs g ws
            end
        end
    end.
  Definition run_prog (p : prog) : res val :=
    do o <- fblock (g_body p) [];
    match o with
    | inl _ => NoCompile
    | inr (Ret v) => Ok v
    | inr (Go f vs) => go (S (length (utf8 text))) (g_states p) f vs
    end.
End Eval.

(** ** The checks of the compiler *)
Section Check.
  Variable fs : list sfun.
  Variable result : ty.
  Fixpoint freturns (s : fstmt) : bool :=
    match s with
    | FS s => returns s
    | FIf _ l m => (fix some (l : list fstmt) : bool := match l with [] => false | s :: r => freturns s || some r end) l
                   && (fix some (l : list fstmt) : bool := match l with [] => false | s :: r => freturns s || some r end) m
    | FSplit _ _ => false
    | FNext none arms other =>
        (fix some (l : list fstmt) : bool := match l with [] => false | s :: r => freturns s || some r end) none
        && (fix some (l : list fstmt) : bool := match l with [] => false | s :: r => freturns s || some r end) other
        && (fix each (arms : list (range * option rexp * list fstmt)) : bool :=
              match arms with
              | [] => true
              | (_, _, l) :: r => (fix some (l : list fstmt) : bool := match l with [] => false | s :: r => freturns s || some r end) l && each r
              end) arms
    | FGo _ _ | FError => true
    end.
  Definition is_bytes (g : ctx) : bool := match look Xbytes g with Some (TVec TByte) => true | _ => false end.
  Fixpoint fgood (s : fstmt) (g : ctx) {struct s} : option ctx :=
    let fgoods := fix fgoods (l : list fstmt) (g : ctx) {struct l} : bool :=
      match l with
      | [] => true
      | s :: r => match fgood s g with Some g' => fgoods r g' | None => false end
      end in
    match s with
    | FS s => good [] (Some result) [] s g
    | FIf a l m => if has [] g a TBool && fgoods l g && fgoods m g then Some g else None
      (* the block after [else] must not end without returning *)
    | FSplit _ l => if is_bytes g && fgoods l g && existsb freturns l
                    then Some ((Xrest, TVec TByte) :: (Xrun_part, TVec TByte) :: g) else None
    | FNext none arms other =>
        if is_bytes g && fgoods none g && fgoods other g
           && (fix each (arms : list (range * option rexp * list fstmt)) : bool :=
                 match arms with
                 | [] => true
                 | (r, h, l) :: arms' =>
                     (fst r <=? snd r)%N && match h with None => true | Some h => has [] g h TBool end && fgoods l g && each arms'
                 end) arms
        then Some g else None
    | FGo f args => match find (fun sf => sf_id sf =? f) fs with
                    | Some sf => if all2 (has [] g) args (map snd (sf_args sf)) then Some g else None
                    | None => None
                    end
    | FError => None
    end.
  Fixpoint fgoods (l : list fstmt) (g : ctx) {struct l} : bool :=
    match l with
    | [] => true
    | s :: r => match fgood s g with Some g' => fgoods r g' | None => false end
    end.
End Check.
Fixpoint distinct_ids (l : list nat) : bool :=
  match l with [] => true | a :: r => negb (existsb (Nat.eqb a) r) && distinct_ids r end.
Definition accepts_prog (p : prog) : bool :=
  distinct_ids (map sf_id (g_states p))
  && forallb (fun sf => fgoods (g_states p) (g_result p) (sf_body sf) (rev (sf_args sf)) && existsb freturns (sf_body sf)) (g_states p)
  && fgoods (g_states p) (g_result p) (g_body p) [] && existsb freturns (g_body p).
