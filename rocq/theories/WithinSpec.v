(** The Lalr construction of /repo/src/lalr.rs:117-182 with three limits that are kept apart: [rounds] on the rounds of a
    closure, [depth] on the nested calls of [update_closures], [turns] on the turns of the loop over the states; and without
    the [continue 'regen] of /repo/src/lalr.rs:150-182, so that every call goes through the symbols once. The model itself
    has a single limit for everything ([fuel] in Model.v) and does go back. Answers [Fuel] when a limit is passed (C133). *)
From Coq Require Import List Bool Arith.
From Verif Require Import BTree Model.
Import ListNotations.

Section Within.
Context {T : Type} {OT : Ord T}.

(** [Lalr::update_closures]; one unit of [depth] is one call *)
Fixpoint renew (dbg : bool) (closure : state T -> res (state T)) (rounds : nat) (syms : list T)
    (depth : nat) (p : lalr T) (main inc closures : state T) {struct depth} : res (lalr T * option (state T)) :=
  match depth with
  | 0 => Fuel
  | S depth' =>
      do '(p1, o) <- update_state dbg p main inc closures;
      match o with
      | None => Val (p1, None)
      | Some new_kernel =>
          do p2 <- (fix go (ss : list T) (p : lalr T) {struct ss} : res (lalr T) :=
            match ss with
            | [] => Val p
            | s :: ss' =>
                do o <- goto_kernel closure rounds (l_kernels p) new_kernel s;
                match o with
                | None => go ss' p
                | Some (kernel, closures) =>
                    match bm_get (without_look kernel) (l_raws p) with
                    | None => go ss' p
                    | Some main_kernel =>
                        do '(p', _) <- renew dbg closure rounds syms depth' p main_kernel kernel closures;
                        go ss' p'
                    end
                end
            end) syms p1;
          Val (p2, Some new_kernel)
      end
  end.

(** the loop over the symbols, /repo/src/lalr.rs:123-144 *)
Fixpoint within_syms (dbg : bool) (closure : state T -> res (state T)) (rounds depth : nat) (syms : list T)
    (idx : nat) (row : state T) (ss : list T) (p : lalr T) : res (lalr T * bool) :=
  match ss with
  | [] => Val (p, false)
  | s :: ss' =>
      do o <- goto_kernel closure rounds (l_kernels p) row s;
      match o with
      | None => within_syms dbg closure rounds depth syms idx row ss' p
      | Some (kernel, closures) =>
          match bm_get (without_look kernel) (l_raws p) with
          | Some main_kernel =>
              do '(p', o') <- renew dbg closure rounds syms depth p main_kernel kernel closures;
              match o' with
              | None => within_syms dbg closure rounds depth syms idx row ss' p'
              | Some nk =>
                  do j <- expect P_index (bm_get nk (l_kernels p'));
                  if Nat.eqb j idx && negb (eqb nk row) then Val (p', true)
                  else within_syms dbg closure rounds depth syms idx row ss' p'
              end
          | None =>
              do _ <- dassert dbg (negb (bm_mem kernel (l_kernels p)));
              within_syms dbg closure rounds depth syms idx row ss'
                (mkLalr (bm_insert kernel (length (l_states p)) (l_kernels p))
                        (l_states p ++ [closures])
                        (bm_insert (without_look kernel) kernel (l_raws p)))
          end
      end
  end.

(** the loop over the states, /repo/src/lalr.rs:121-146 *)
Fixpoint within_rows (dbg : bool) (closure : state T -> res (state T)) (rounds depth : nat) (syms : list T)
    (turns : nat) (idx : nat) (p : lalr T) : res (lalr T) :=
  match turns with
  | 0 => Fuel
  | S turns' =>
      match nth_error (l_states p) idx with
      | None => Val p
      | Some row =>
          do '(p', again) <- within_syms dbg closure rounds depth syms idx row syms p;
          within_rows dbg closure rounds depth syms turns' (if again then idx else S idx) p'
      end
  end.

(** [Lalr::with_table], /repo/src/lalr.rs:26-30 *)
Definition lalr_within (dbg : bool) (rounds depth turns : nat) (t : tabler T) : res (tabler T) :=
  let g := t_grammar t in
  let closure := clr_closure g (t_first t) in
  do start <- prop_closure closure rounds [g_basis g];
  do p <- within_rows dbg closure rounds depth (g_symbols g) turns 0 (mkLalr [([], 0)] [start] [([], start)]);
  do acts <- proc_actions g clr_look (sfk_lalr p) (l_states p);
  Val (mkTabler g (t_first t) (t_follow t) acts (l_states p) (l_kernels p)).
End Within.
