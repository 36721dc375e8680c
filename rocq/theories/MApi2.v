(** The C interface, continued: Measure and PermutationProb.  /repo/src/pinvoke_api.cpp ("api").  Simplified as in MApi.v. *)
From Coq Require Import NArith List Bool.
From Verif Require Import MFunctions Amp SpecState MQCircuit MTensor MApi.
Import ListNotations.
Local Open Scope N_scope.

Section Api2.
  Context {K : StarRing} (ci ch : K) (c : @acfg K).
  Local Open Scope amp_scope.
  (** MParity (/repo/include/qparity.hpp, /repo/src/qengine/state.cpp:1557-1610): 1 for odd parity of the qubits of the mask. *)
  Definition sim_mparity (mask d : N) (s : @sim K) : out (bool * @sim K * N) :=
    do p <- sim_prob_parity mask s;
    let '(r, d) := if sr_eqb p 1 then (true, d) else if sr_eqb p 0 then (false, d) else (ac_rnd c d p, (d + 1)%N) in
    let nz := if r then p else 1 - p in
    Ret (r, mkSim (s_n s) (fun x => if eqb (odd_bits 64 (N.land x mask)) r then ac_nrm c nz * s_v s x else 0), d).
  (** Measure (api:2121-2140) with _JointEnsembleProbabilityHelper (api:1218-1242).  None stands for the value returned after an error. *)
  Definition api_measure (sid : N) (l : list (pauli * N)) (a : @api K) : out (option bool * @api K) :=
    lookup sid a (Ret (None, meta_error a)) (fun s =>
      match sl_sim s with
      | None => Ret (None, a)
      | Some (Q, m) =>
          match (do S1 <- to_z ci ch l m Q;
                 do (r, S2, d) <- (match no_identities l with [] => Ret (false, S1, a_draw a) | l' => sim_mparity (mask_of (map (fun e => shard_id m (snd e)) l')) (a_draw a) S1 end);
                 do S3 <- from_z ci ch l m S2; Ret (r, S3, d)) with
          | Ret (r, S3, d) => let a := put sid (mkSlot (sl_res s) (Some (S3, m)) (sl_err s)) a in Ret (Some r, mkApi (a_slots a) (a_meta a) d)
          | Throws => Ret (None, put sid (set_err s) a)
          | Undef => Undef
          end
      end).
  (** ProbMask (/repo/src/qengine/state.cpp: ProbMask). *)
  Definition sim_prob_mask (mask perm : N) (s : @sim K) : out K :=
    if (2 ^ s_n s <=? mask)%N then Throws else Ret (weight_of (s_n s) (fun x => (N.land x mask =? perm)%N) (s_v s)).
  (** PermutationProb (api:2534-2565); for an ID that is not found the power of 2 is taken of 255, which is undefined for integers of
      2 ^ QBCAPPOW bits up to 128. *)
  Definition api_perm_prob (sid : N) (l : list (N * bool)) (a : @api K) : out (option K * @api K) :=
    lookup sid a (Ret (None, meta_error a)) (fun s =>
      match sl_sim s with
      | None => Ret (None, a)
      | Some (Q, m) =>
          if existsb (fun e => (2 ^ ac_cap c <=? shard_id m (fst e))%N) l then Undef
          else match sim_prob_mask (mask_of (map (fun e => shard_id m (fst e)) l)) (mask_of (map (fun e => shard_id m (fst e)) (filter snd l))) Q with
               | Ret p => Ret (Some p, a)
               | Throws => Ret (None, put sid (set_err s) a)
               | Undef => Undef
               end
      end).
End Api2.
