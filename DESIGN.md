# Formal model of cbadc — design

Target: `hammal/cbadc` (Python) at the pinned commit in `/repo`. Prover: Coq 8.16.1. The code was read as text and
never run; nothing in `/repo` is changed. Statements of the properties are in `properties.jsonl`, theorem names per property
in `MANIFEST.json`, mutation tests in `seeded/LOG.jsonl`.

## Approach

* Each modelled Python function is a small total Gallina function that mirrors the code branch by branch and cites file and
  lines. Python exceptions are values (`Exn kind`); generators and iterators are finite streams with an explicit ending.
  A source is either a generator (`SrcGen`: a `raise StopIteration` inside it becomes `RuntimeError`, PEP 479) or an object with
  `__next__` (`SrcObj`). Mutable numpy arrays that are aliased are modelled with an explicit heap (digital control, signals,
  modulator buffer).
* Numbers. `float` is idealised to an exact carrier unless stated otherwise. Estimators, analog systems and topology are proved
  over an arbitrary commutative ring given as a first-class record `cring` (`LinAlg.v`; instances `Zring`, `Qcring`, `Rring`,
  `Cring`), adaptive filters over a field with conjugation (`sfield`; instances `Rfield`, `Cfield`). Waveforms, clocks, controls,
  figures of merit, simulators, stability and circuits are over `R` with Flocq's boolean comparisons. `FixedPoint` is modelled over
  `R` and also in IEEE binary64 (Flocq `BinarySingleNaN`).
* Linear algebra is on lists, lists of rows, or shape-and-entries records, with shapes checked where numpy would raise.
* Specifications are plain statements with explicit sums, intervals or sets, or small definitions in the property or proof
  files that do not use the model's loop helpers.
* Files `P_*.v` hold the property theorems, each with `Print Assumptions` and a non-vacuity `Example`.
* False expectations are recorded as `*_refuted : exists ..., ...` with a witness, next to the positive theorem on the
  exact domain where the expectation holds.

## Property by property

| Property | Model | Modelled code | Proof idea |
|---|---|---|---|
| C01–C07 | ByteCodec | utilities.py: byte codec, byte stream files, show_status, iterator_to_numpy_array, CSV reader after tokenisation | bit sums on `Z.testbit`, induction over streams |
| C08, C09 | FixedPoint | utilities.py: FixedPoint over R and binary64 | arithmetic; Flocq rounding lemmas, computed witnesses |
| C10–C16, C63, C64 | DigitalControl | digital_control.py, multi_level_digital_control.py, dither_control.py with a heap of arrays | invariants over call histories, threshold counting |
| C17 | UnitElements | digital_control/utilities.py: unit_element_set | induction on the product enumeration |
| C18–C21 | Signals | analog_signal/: clock, ramp, zero order hold, sinusoidal, constant, impulse responses, signal algebra | floor-modulo lemmas, induction, heap witness |
| C22–C25, C27–C30 | Estimators | batch, FIR and IIR estimators as state machines | closed-form sums by induction, counting, buffer invariants |
| C26 | Parallel | parallel_digital_estimator.py | diagonalisation in C |
| C31–C34 | FirExtras | fir_estimator.py: fixed point, coefficient count, exported tables, convolution | bounds, list induction |
| C35, C62, C66 | Simulator | numerical_simulator.py, _base_simulator.py | superposition and uniqueness of linear ODEs |
| C36, C43–C45 | Integrators, Stability | chain_of_integrators.py, leap_frog.py (analog_system and synthesis) | mean value theorem and induction over periods; trigonometric eigenvectors; real arithmetic |
| C37–C40 | AnalogSystem | analog_system.py (constructor, derivative, observations), topology.py chain and stack | block-vector lemmas |
| C41, C42, C65 | AnalogSystem, Zpk | topology.py tf2abcd, zpk2abcd, sos2abcd | steady states over C |
| C46 | Ctsd | continuous_time_sigma_delta.py | string injectivity of decimal names, proof up to order 10, collision from 11 |
| C47 | Fom | fom.py | logarithms |
| C48–C50, C71, C72 | Netlist | circuit/__init__.py | invariants over call sequences, induction on the circuit tree |
| C51–C54, C61 | Circuits (laws: CircuitLaws) | circuit/opamp.py, ota.py, lc_tank.py, analog_frontend.py, testbench.py, components | Kirchhoff's laws on the emitted lines |
| C55 | Observe | circuit/simulator.py: parse, _float_to_ternary | loop invariant against the crossings of the clock |
| C56–C58, C67–C70 | Adaptive | adaptive_filter.py | matrix identities, least squares optimality, gradient as derivative |
| C59 | Modulator | analog_system/modulator.py: SineWaveModulator | pairing of shuffled coordinates, rotation identities |
| C60, C73 | Peaks | utilities.py: find_n_sinusoidals, find_sinusoidal, snr_spectrum_computation(_extended) | loop invariant over the found peaks |
| C74, C75 | FilterCoeff | digital_estimator/_filter_coefficients.py, ode_solver/{mpmath,sympy}.py | uniqueness of linear ODE solutions, superposition, composition with C22 |
| C76–C78 | TransferFn (complex linear algebra: CplxLin) | analog_system.py: transfer functions, eta2; batch_estimator.py: transfer functions and budgets | phasor equations, normal equations of regularised least squares, Riccati equations in the frequency domain |
| C79 | Optimal (specification: integral, explains, cost) | composition of C22, C74 with the two filters over a window | adjoint state, completion of squares, monotone functions |
| C80–C82 | Quadrature (specification: turnI, turnQ, pole_of) | synthesis/quadrature.py | rotating frame, exact integration over one period, tridiagonal eigenvalues, commuting couplings |
| C83–C86 | Nuv (specification: trajectory, input_cost, least_energy, nuv_passes, carried) | nuv_estimator.py | adjoint equation, completion of squares, dynamic programming on messages, majorisation; invariants over call sequences |
| C87, C88 | GlobalControl (specification: held, one_period, output_energy, integral) | analog_frontend.py | superposition, quadratures as inner products, completion of the square; uniqueness of flows |
| C89-C92 | Filters, Zpk (specification: conj_set, responds, eigenvalue, the design records of FilterDesign, cheb) | analog_system/filters.py | pairing of sorted conjugate sets; real cascades as complex transfer functions; factorisation of Chebyshev polynomials over their roots |
| C93-C96 | CircuitControl, Netlist (specification: XspiceLaws, `follows` of CircuitControlMain) | circuit/digital_control.py, circuit/components/{comparator,summer,analog_delay,reference_source}.py | every net's name by its root; lookup of model cards and sub-circuits by name through the hierarchy; simulation relation between nested instances |
| C97-C101 | SignalsMore | analog_signal/{quadrature,sinc_pulse,random}.py, the constructors of _analog_signal.py, demodulate, simulator/numpy_simulator.py | complex exponentials; invariants of the sequence of evaluations; histories |
| C102 | Circuits, CircuitControl, Netlist (specification: ClosedLoop, CircuitLaws, XspiceLaws) | circuit/testbench.py, circuit/{analog_frontend,opamp,ota,digital_control}.py together | waveforms of three nested netlists; induction over decisions; uniqueness of linear ODEs |
| C103 | SpiceSimulator, Observe, Circuits (specification: SpiceRun, ClosedLoop) | circuit/simulator.py, simulator/simulator.py: class NGSpiceSimulator, with circuit/testbench.py | invariant over the samples of a clock with numbered phases; simulation relation between objects for retries; composition with C102 |
| C104 | Riccati, FilterCoeff (specification: RiccatiAlg, RiccatiProofs, RiccatiDecay) | _filter_coefficients.py: care, _analytical_care, _numpy_care, bruteForceCare | invariant subspaces of the Hamiltonian matrix; Sylvester equations with stable coefficients have only the zero solution (symmetry, reality, uniqueness); Lyapunov function in eigen-coordinates for the decay; sortedness of argsort |
| C105 | Riccati (specification: RiccatiBrute) | _filter_coefficients.py: bruteForceCare, care | invariants of the loop, geometric sums, termination from bounded residuals; fuel with existence of enough fuel |
| C106 | Estimators, FilterCoeff, Riccati (specification: `decisions`, `within`, `prefix` of EstimatorDecay) | batch, FIR and IIR estimators with the coefficients of C104 | closed forms of C22-C24, geometric tails, completeness of R |
| C107 | WarmUp, Estimators (specification: `window_est`, `wiener`, a run on the concatenated signal) | `warm_up`, `filter_lag`, `set_iterator`, size checks of the constructors | closed forms of C22-C24, simulation of runs with a longer source |
| C108 | Survey, Fom (specification: half-open ranges of `snr_to_enob`, permutations) | `MurmannSurvey` without download and plotting; a missing entry is `None` and compares false | counting of hits per row, induction on the list of edges |
| C109 | as C104, C106 (specification: trajectories `front_end` of the analog system, `solves_on`) | estimators and coefficients as in C104 and C106; the analog system is its differential equation, exact samples of the decisions | error equations of the two filters, uniqueness of solutions, Lyapunov function with forcing |
| C110 | FilterCoeff, Estimators, TransferFn (specification: `tone`, `front_end`, `rls`) | estimators fed by any run of the analog system with sinusoidal inputs; hypotheses of C76 and C109 (no direct term, Vf + Vb invertible, stabilising `care`) | steady states from the eigenvectors of the filters, C76 for their difference, C109 for the rest |
| C111 | Integrators, DigitalControl, Simulator, FilterCoeff, Estimators, TransferFn (EndToEnd.v ties them together; specification: a cosine) | composition of C36 (bounded states), C109 and C110; `handed_out` is the content of the array at the time of the call, as the estimators read it before the next call | the simulated run as a trajectory of the analog system; lower triangular A has no imaginary eigenvalue other than 0 |
| C112 | FirFreq.v (fir_filter_transfer_function; np.fft.rfft and rfftfreq by their documentation, exact reals), Estimators.v | discrete Fourier transform and sinusoids | orthogonality of the roots of unity; shift of one period |
| C113 | VerilogAms.v (SummerModel / IntegratorModel.get_verilog_ams, the right-hand sides in the two templates, as tokens) | recursive-descent reading of Verilog-AMS expressions (two adjacent minus signs are two unary/binary minuses), XSPICE summer | induction over the terms with the parser's accumulator |
| C114 | Elements.v (instance names, __setattr__, add, Terminal names), Netlist.v | same net (one port), SPICE names without case | invariant over call sequences; induction over the terminals taken over |
| C115 | Integrators.v (get_leap_frog, LeapFrog), Simulator.v (FullSimulator), DigitalControl.v | bounds on the states; [solves]: exact solutions of the ODE | invariant over periods; within a period the excess over the levels contracts |
| C116 | as C111, with get_leap_frog | as C111 | C109, C110, C115; poles from C44 |
| C117 | Psd (with Peaks, ByteCodec) | utilities.py: compute_power_spectral_density (scipy's welch by its documentation, exact reals) | Parseval, orthogonality of roots of unity, transform of the Blackman window |
| C118 | Psd, Peaks | utilities.py: the chain compute_power_spectral_density, find_sinusoidal, snr_spectrum_computation | Young's inequality per bin, total power of the errors, peak comparison |
| C119 | PsdRms, Psd, Peaks | utilities.py: snr_spectrum_computation_extended with scipy's symmetric Blackman window | sums of the window and of its square, exchange of sums over bins and sinusoids |
| C120 | Decimate | decimation_and_demodulation.py: decimate (scipy's resample by its definition, real arrays of one or two dimensions) | orthogonality of roots of unity, inverse transform |
| C121 | UrlReader | utilities.py: read_byte_stream_from_url (the server, and how iter_content of requests cuts transfer pieces, are an oracle with stated behaviour) | induction over responses and pieces |
| C122 | SymbolicOde | analog_system.py: symbolic_differential_equations (sympy expressions as sums of coefficients times symbols, real coefficients) | linear equations: superposition and uniqueness |
| C123 | HoldSignals | analog_signal/zero_order_hold.py: BandLimitedSignal, RaisedCosine (one-dimensional data, exact reals) | closed form of the loop, bounds of sinc |
| C124 | StoredRun | the generator of utilities.py as source of the three estimators (ByteCodec, UrlReader and Estimators composed) | simulation of two runs that differ in the exception at the end of the source |
| C125 | SummerElement | circuit/components/summer.py: both classes; ports of models/summer.py | positional connection of ports to nodes (Verilog-AMS, trusted reading), C113 for the value of the text |
| C126 | Estimators | the three estimators, related at different rates, on parts of a recording and on complemented signals | closed forms of C22-C24, C29 |
<!-- more properties -->

## Trusted base

* The Coq 8.16.1 kernel (`vm_compute` included) and the correctness of the transcription of the Python text into the model files.
* The axioms listed below by `Print Assumptions` for each theorem; all come from Coq's standard library (the construction of the
  real numbers, functional extensionality, classical logic used by it and by Coquelicot/Flocq's lemmas on reals). No axiom,
  `Parameter`, `Admitted` or section-less `Variable` of our own; no functor or module type of our own; no kernel check switched off.
* Libraries used: Coq stdlib, Flocq (floor, boolean comparisons, binary64), Coquelicot (complex numbers, a few limits). They add no
  axioms beyond those of the standard library.
* Python and numpy semantics as encoded in the models: exception classes only (not messages); PEP 479; slicing, broadcasting and fancy
  indexing as described in the comments; dictionary order; identity comparison of objects without `__eq__`.

### Simplifications (also stated at the definitions)

* Floating point rounding, overflow, nan and inf are not modelled except in the binary64 part of `FixedPoint`. Where numpy would
  warn and go on with inf or nan, the models stop with `ArithmeticError`.
* `InvalidAnalogSystemError`, `LinAlgError` and other package-specific exceptions are `GenericException`.
* External numerical routines are parameters, constrained by hypotheses stated in the theorems: `solve_ivp`, `expm`, `pinv`, `eig`, `lstsq`,
  `blackman`, the coefficient solvers (scipy, mpmath, sympy; for C74, C75 the record `sound`: Riccati solver, inverse, least squares,
  initial value problems and matrix exponential return exact solutions whenever they return; concrete instances in `FilterExample`; for C76–C78 `pinv`, `inv` return the inverse of an invertible matrix, the rcond cut-off is not modelled; for C83–C86 the records `nuv_sound` (expm and solve_ivp exact whenever they return) and `exact_inv` (inv returns the inverse, and returns for symmetric positive definite matrices); instances in `NuvWitness`; for C87, C88 the records `global_sound` and `trajectory_sound`, the same for `get_global_control` and `inverse_state_trajectory`, instances in `GlobalWitness`; for C89-C91 `butter_design`, `cheby1_design`, `cheby2_design`: the zeros, poles and gain of the textbook prototypes (buttap, cheb1ap, cheb2ap, then lp2lp_zpk) in exact arithmetic and in any order, instance `exact_iir` in `P_Filters`), the random table of the dither control, `argsort` order of ties.
* Of the transfer functions the symbolic (sympy) branches and `white_noise_balance(max=False)` are not modelled.
* NUV estimator: negative `oversample` is not modelled; `num_iterations` is a natural number.
* Global control: `M_tilde > M`, `M_tilde = 0` and a missing `Gamma_tildeT` are not modelled; the events of the solver (phases, end of the period) only steer its steps and are left out; `Q = 0` (infinite entries) is `ArithmeticError`.
* Standard filters: the attributes Wn, rp, rs of the filter objects are left out; scipy's behaviour for orders, frequencies or ripples outside of the stated ranges is not described; the ripple of elliptic designs is not modelled (C92 takes zeros, poles and gain as they come); designs with repeated poles or zeros (bandpass, bandstop, highpass of order > 1) are outside of C92.
* Digital control circuits (C93-C96): what a line means is the ideal behaviour of XspiceLaws (no delays, rise or fall times, strict comparison with the thresholds and any state between them, flip-flop undefined before the first edge, set and reset never active); a model or sub-circuit is found by its name, the first one counts; the file of the reference source is taken to hold the sequence, one row for each period of the nominal clock; the anonymous terminals' names are arbitrary; ClockedComparator is not used by the controls.
* Random signals (C99): the arrays an object draws are a function of how many it drew before (any function, no distribution); float time as R, so that the drift of C99 is that of the algorithm and not of rounding. SincPulse.symbolic is taken as the value of the expression at t. NumpySimulator: np.load is a parameter, the rows a list.
* Closed loop (C102): a solution of the test bench is a family of waveforms, one per level of the hierarchy, that obey the laws of every line from t = 0 on and agree on the nodes of the sub-circuit instances (ClosedLoop.v, `obeys`); state nodes are continuous, and differentiable wherever the terminals of the front end other than the clock are continuous. in_high = in_low = 0 and out_low = 0 as in the constructors; a nominal digital control (not multi-phase, not dithered). How a simulator finds a solution is not modelled.
* SPICE simulator object (C103): rendering the netlist and running ngspice are oracles (Section variables `render`, `prog`; the n-th run gives a raw file or an exception; a failed run leaves the file of the run before); a raw file is a function from variable names to columns, as `Ltspice.get_data`, which returns None for an unknown name (then numpy raises TypeError). Lower-casing of names in that library, AC analysis, options and log files are not modelled. SpectreSimulator is not modelled: its constructor calls TestBench.get_spectre, which raises NotImplementedError.
* Riccati solvers (C104): inverses, pseudo-inverses and eigenvectors of numpy and sympy are oracles (`rinv`, `diagonalize`, `cinv`, `eig`, `pinv`) assumed exact whenever they return (`exact_rinv`, `exact_diag`, `exact_cinv`, `exact_pinv`); the order in which sympy lists the eigenvalues is a hypothesis, not a fact about sympy. `sp.simplify` is the identity on values. numpy's order of equal eigenvalues is not specified; the model keeps the first one first. The solver assumption of C74 and C75 (`so_care` in `sound`) is needed only for square A and symmetric Q, R.
* Brute force iteration (C105): the clock is an oracle (`late k`: the limit has passed before step k); floating-point overflow (`FloatingPointError`) does not occur over R; an answer `None` of the model means that the loop is still running after `fuel` steps, and C105_terminates and C105_time_limit give enough fuel.
* int8 wrap-around outside −128..127 is not modelled (the stored values are 0 and 1).
* Simulators: no thermal noise; the partial effect of a call that raises is not modelled.
* Netlists: upper-casing of names is ASCII only; the text of jinja templates is opaque; undefined template variables are None; the decimal
  text of element values is not modelled (values are reals); the contents of the digital control sub-circuits are modelled separately (CircuitControl); of the
  test benches the connections of `OpAmpTestBench` are modelled. The element equations in `CircuitLaws.v` (resistor,
  capacitor, inductor, controlled source, sources) are the specification, not ngspice itself.
* Logging, plotting, printing, file system errors and network access are not modelled.

### Axioms per theorem (output of `Print Assumptions`)

<!-- assumptions: generated -->

**Closed under the global context (no axioms)** (148 theorems):
C57_windows, C57_short, C57_one_window_dropped, C57_pairing, C57_bad_delay, C68_call_raises, C68_call_square, C68_rls_raises, C68_lms_raises, C69_call, C69_rls_raises, C69_lms_raises, C69_get_offset, C70_iir_recursion, C37_accepts, C37_stores, C37_derivative, C38_state_only, C38_full, C38_input_without_control_raises, C38_partial_arguments_refuted, C39_chain_is_series, C39_mismatch_raises, C39_nonsquare_first_refuted, C40_stack_is_parallel, C40_observation_iff, C41_accepts, C41_shapes, C41_steady_states, C01_stream_round_trip, C01_failure_domain, C01_short_sample, C01_round_trip_every_M_refuted, C02_word_shape, C02_injective, C02_decode_shape, C02_decode_then_encode, C03_file_round_trip, C04_read_many, C04_only_first_file_decoded, C05_split, C05_zero_words_never_terminates, C06_show_status, C06_iterator_to_numpy_array, C07_csv_first_bad_line, C07_csv_reversed_round_trip, C16_rows_visited, C17_default_candidates, C17_leading_zero_empty, C114_name, C114_name_refuted, C114_distinct, C114_new, C114_replace, C114_replace_raises, C114_replace_names, C114_replace_short_refuted, C114_letter_refuted, C114_passive, C22_batch_closed_form, C23_fir_closed_form, C24_iir_closed_form, C24_iir_minus_fir_is_tail, C24_iir_no_lookahead_fails, C25_batch_one_is_iir, C27_batch_output_count, C27_limit_is_output_count_refuted, C28_fir_output_count, C28_iir_output_count, C28_fir_downsample_beyond_window, C29_batch_end_of_stream, C30_batch_no_overrun, C33_export_parses_back, C34_convolve, C34_pmul_is_polynomial_product, C59_pairs_refuted, C48_nets, C48_emitted, C48_net_name, C48_merge_moves, C48_merge_refuted, C48_same_name_refuted, C48_ground_refuted, C48_generated, C49_appends, C49_lookup, C49_insert_refuted, C50_first_of_its_name, C50_one_per_name, C50_order, C50_parameters_refuted, C71_check, C71_stale_refuted, C71_siblings_refuted, C72_definitions, C72_order, C99_combined, C101_rows, C101_iter_refuted, C124_batch_other_exception, C124_fir_other_exception, C124_iir_other_exception, C124_batch_from_file, C124_fir_from_file, C124_fir_file_with_limit, C124_batch_from_urls, C124_stored_loop_ends_refuted, C108_groups, C108_groups_content, C121_round_trip, C121_status_ignored, C121_error_page_refuted, C121_broken, C121_pieces, C121_body_refuted, C113_summer_lengths, C107_construct, C107_fir, C107_iir, C107_batch, C107_aligned_refuted, C107_downsample_refuted, C107_samples, C107_again, C107_exhausted, C107_no_iterator, C107_switch_fir, C107_switch_iir, C107_switch_batch, C107_resume_refuted, C107_batch_stopped, C125_summer_init, C125_differential_init, C125_summer_fits, C125_differential_ngspice, C125_differential_fits, C126_fir_downsample, C126_iir_downsample, C126_same_instant_refuted, C126_fir_segment, C126_iir_segment_refuted, C126_short_segment_refuted, C126_complement_fir, C126_complement_iir, C126_complement_batch, C126_offset_refuted, C124_iir_from_file, C124_fir_iir_from_urls

**`ClassicalDedekindReals.sig_forall_dec`** (5 theorems):
C96_differential, C20_sum_of_signals_evaluates_refuted, C113_unique, C125_dimensions_refuted, C125_differential_refuted

**`ClassicalDedekindReals.sig_forall_dec`, `FunctionalExtensionality.functional_extensionality_dep`** (139 theorems):
C56_rls_minimises, C56_rls_continues, C57_square_refuted, C58_gradient, C58_descent, C67_lstsq_minimises, C67_lstsq_conjugate, C67_complex_fit_refuted, C68_offset_refuted, C41_transfer_function, C65_sos, C65_accepts, C93_decision, C93_sign, C93_exists, C94_delayed, C94_exists, C95_deterministic, C95_multi_phase, C95_random, C95_shared, C95_timing, C95_timing_all, C96_single_refuted, C95_independent_refuted, C51_ideal, C51_names, C51_errors, C52_state, C52_max, C52_dc_gain, C52_errors, C52_names, C53_capacitors, C53_inductors, C53_passive, C53_netlist, C54_errors, C61_high, C61_ngspice, C61_delay_refuted, C61_spectre, C52_dc_gain_refuted, C53_netlist_refuted, C102_scale, C10_history, C10_short_observation, C10_constructor, C12_live_view, C12_frozen_after_reset, C12_views_are_history_refuted, C14_quantiser, C14_monotone, C14_odd, C14_error, C14_history, C14_constructor, C15_offsets_ignored, C15_decision_includes_offset_refuted, C16_history, C16_shares_wrapped_control, C63_multilevel_binary_after_reset, C63_dither_off_after_reset, C46_import, C46_diagonal_refuted, C46_names_collide, C46_every_order_refuted, C46_errors, C31_constructor_raises_iff, C31_fixed_point_result, C32_counts_positive, C32_counts_nonzero_refuted, C08_conversions, C08_float_round_trip, C08_fixed_round_trip, C08_monotone_odd, C08_full_scale_fits_word_refuted, C55_rows, C55_count, C55_ternary, C55_nearest_refuted, C55_edge_refuted, C55_errors, C26_truth_values, C26_same_as_batch, C26_half_refuted, C60_mask, C60_one, C60_total, C60_peak_refuted, C60_dist_refuted, C73_snr, C73_invariant, C105_result, C105_drift, C105_terminates, C105_time_limit, C105_solution_kept, C105_far_refuted, C105_choice, C18_constructor, C18_waveform, C18_full_duty_cycle_rejected, C18_flat_level_exceeds_max_value, C19_next_tick, C19_fast_clock_stuck, C19_reaches_edge_refuted, C19_delay_clock, C20_algebra, C20_zero_order_hold_operand, C21_zero_order_hold, C21_zero_order_hold_periodic, C21_ramp, C21_ramp_amplitude_refuted, C99_held, C99_rate, C99_drift_refuted, C99_uniform, C99_tick, C99_values, C103_size, C103_size_errors, C103_once, C103_retry, C103_reparse_refuted, C108_architectures, C122_equations, C122_no_gamma, C122_functions_refuted, C77_transfer_function, C77_general_response, C76_frequency_response, C113_summer, C113_summer_inactive, C113_summer_refuted, C113_integrator, C113_integrator_initial, C113_offset_refuted, C125_summer_agrees

**`ClassicalDedekindReals.sig_forall_dec`, `ClassicalDedekindReals.sig_not_dec`, `FunctionalExtensionality.functional_extensionality_dep`** (111 theorems):
C51_finite, C54_input, C54_exact, C54_rails, C54_offset_refuted, C54_phase_refuted, C102_opamp, C102_gmc, C11_contribution, C11_default_is_sign, C11_impulse_response, C13_other_phases_stay_zero, C17_unit_element_set, C17_default_succeeds_iff, C64_dither_delay_raises, C120_outcome, C120_identity, C120_mean, C120_sinusoids, C120_samples, C120_spacing_refuted, C120_channels, C74_batch_is_continuous_filter, C112_bins, C112_shape_refuted, C112_inverse, C112_sinusoid, C112_periodic, C112_direction_refuted, C87_arguments, C123_outcome, C123_samples, C123_few, C123_first, C123_linear, C123_hold, C123_periodic_refuted, C123_cosine_refuted, C59_init, C59_rotation, C59_observation, C59_downmodulation, C59_control, C59_amplitude, C59_errors, C59_buffer, C59_control_refuted, C59_alias_refuted, C83_nuv_start, C86_arguments, C86_no_iterator, C86_rectangular_outputs, C86_oversampling, C86_samples_suffice_refuted, C73_extended, C73_default_refuted, C117_result, C117_errors, C117_offset_gain, C117_snr_offset_gain, C117_total_power, C117_sinusoids, C117_noiseless, C117_four_bins_refuted, C117_column, C118_measured_snr, C119_scale, C119_sinusoids, C119_rms_refuted, C80_accepts, C80_envelope, C80_poles, C80_scalar_input, C80_control, C80_keeps_control_refuted, C80_zero_carrier_refuted, C80_gains_refuted, C80_direct_path_refuted, C104_unsolvable_refuted, C104_order_refuted, C97_pair, C97_offset_refuted, C97_phase_refuted, C97_modulator, C97_modulator_refuted, C100_last, C100_vector, C100_first, C100_first_refuted, C103_opamp, C103_gmc, C103_states, C108_walden_envelope, C43_chain, C43_leap_frog, C43_length_checked_refuted, C43_broadcast, C44_in_band, C77_noise_transfer, C77_signal_transfer, C77_one_input, C77_half_at_bandwidth, C77_control_shape, C77_control_without_gamma, C77_control_all_states, C77_control_output_matrix_refuted, C77_general_one_output, C77_general_two_outputs_refuted, C76_noise_response, C76_signal_response, C76_direct_term_refuted

**`ClassicalDedekindReals.sig_forall_dec`, `Classical_Prop.classic`, `FunctionalExtensionality.functional_extensionality_dep`** (1 theorems):
C31_error_bound

**`ClassicalDedekindReals.sig_forall_dec`, `ClassicalDedekindReals.sig_not_dec`, `Classical_Prop.classic`, `FunctionalExtensionality.functional_extensionality_dep`** (126 theorems):
C42_realises, C42_accepts_real, C42_close_real_poles, C42_gain_sign_refuted, C78_sensitivities_balanced, C78_sensitivities_spectrum, C78_noise_grid, C78_target_snr_refuted, C78_balance_shape, C78_balance_square_refuted, C78_harmonics, C78_harmonics_total_refuted, C78_harmonics_grid_refuted, C102_unique, C102_reproduces, C109_estimate_is_error_difference, C109_conversion_error, C109_same_input, C111_end_to_end, C116_end_to_end, C106_agree, C106_any_accuracy, C106_local, C106_taps, C74_numpy_coefficients, C75_mpmath_coefficients, C75_mpmath_late_waveform_refuted, C75_sympy_coefficients, C75_sympy_decaying_waveform_refuted, C75_numpy_midpoint_forward, C75_numpy_midpoint_backward_refuted, C89_butterworth, C89_half_power, C89_transfer_function, C90_chebyshev1, C90_ripple, C90_transfer_function, C91_chebyshev2, C91_stopband, C91_transfer_function, C92_cauer, C92_iirdesign, C92_gain_sign_refuted, C09_integer_round_trip_refuted, C09_full_scale_round_trip_refuted, C09_power_of_two_exact, C87_frontend, C87_energy, C87_least_energy, C87_decision, C87_phase_refuted, C88_inverse, C88_full_turn, C123_continuous_refuted, C115_states_bounded, C115_oversampling, C115_any_levels, C115_full_scale_refuted, C83_nuv_estimates, C83_estimates_are_the_input_refuted, C84_passes_improve, C85_carried_over, C85_single_sample_batches, C85_prior_of_the_next_batch_refuted, C86_end_of_source, C79_batch_estimates_optimal, C80_alignment, C81_synthesis, C81_enob_refused, C81_unusable, C81_simulable_refuted, C82_widths, C82_default_widths, C82_dynamics, C82_poles_three, C82_poles_four, C82_resonance_refuted, C104_analytic, C104_numpy, C104_filters_stable, C104_forgets, C21_dac_waveforms, C98_evaluate, C98_mpmath, C98_symbolic_refuted, C35_exact, C35_solution_unique, C35_same_as_full, C35_superposition, C35_hold_refuted, C35_delay_refuted, C35_output_refuted, C62_raises, C62_row_frequency, C62_superposition_refuted, C66_euler, C66_exact_refuted, C103_reproduces, C108_select, C108_tiles, C108_missing, C108_everything_refuted, C108_schreier_envelope, C108_jitter, C122_superposition, C36_states_bounded, C36_any_chain, C44_poles, C45_chain_osr, C45_chain_period, C45_chain_snr, C45_excess_delay_ignored, C45_switched_capacitor, C45_leap_frog, C45_leap_frog_osr, C45_leap_frog_period, C45_leap_frog_period_refuted, C47_enob_inverse, C47_dB_inverse, C47_increasing, C47_bits, C47_FoM_S, C47_FoM_W, C47_jitter, C110_sinusoids, C110_signal_transfer
<!-- end -->

## Not modelled

The numerical methods inside ODE solvers (Taylor series of mpmath) and inside scipy's Riccati solver, of scipy's FFT and Welch spectra only the definition (C100, C112, C117; exact reals), plotting, rendering of
jinja templates, ngspice and Spectre themselves, the Verilog-AMS models other than the
expressions of summer and integrator (`clocked_comparator.vams.j2` is not valid Verilog-AMS: `inpup vgnd`, missing semicolons, an undefined delay; the models of VCVS, OTA and voltage buffer declare the port `vdd` twice and no `vss`, and the template of the VCVS does not exist), `SpectreSimulator`
(its constructor always raises), `SquareWaveModulator` (its constructor always raises), `SwitchedCapacitorControl` (its constructor always raises DeprecationWarning), `pickle_dump`/`pickle_load`/`write_wave` (one call to a library each).
