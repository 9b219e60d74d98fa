{"id": "C01", "title": "Control-signal byte codec round trip and its exact failure domain", "statement": "For every M<=128 and every control vector of length M (entry >0 means bit set), encoding one sample with control_signal_2_byte_stream and decoding the word with byte_stream_2_control_signal either returns exactly the 0/1 indicator of the positive entries, or the encoder raises struct.error; the encoder raises exactly when the packed integer exceeds the signed range of the chosen C type (M=16 with entry 15 set; 32<=M<=64 with any entry >=31 set; 65<=M<=128 with any entry >=63 set). For M>128 both directions raise. In particular the advertised round trip is false for M=16 and for M=33..64, 65..128.", "quantifier": "all M in nat, all control vectors of length M over the integers", "why_tests_cant": "2^M vectors per M; the failing words are a measure-small set that only shows for M=16 or M>=32 which no test uses.", "anchors": ["src/cbadc/utilities.py:number_of_bytes_selector", "src/cbadc/utilities.py:control_signal_2_byte_stream", "src/cbadc/utilities.py:byte_stream_2_control_signal"]}
{"id": "C02", "title": "Byte codec is injective and length preserving", "statement": "Every successfully encoded word has exactly number_of_bytes_selector(M).number_of_bytes bytes, each in 0..255, and two 0/1 control vectors of the same length that encode to the same word are equal; conversely decoding any well-sized word yields a 0/1 vector of length M whose re-encoding (when it succeeds and the word has no bit >=M set) is the same word.", "quantifier": "all M<=128, all pairs of 0/1 vectors, all byte words of the right size", "why_tests_cant": "Injectivity quantifies over pairs of inputs.", "anchors": ["src/cbadc/utilities.py:control_signal_2_byte_stream", "src/cbadc/utilities.py:byte_stream_2_control_signal"]}
{"id": "C03", "title": "File round trip of a control signal stream", "statement": "Writing any stream of n encoded words to one file with write_byte_stream_to_file and reading it with read_byte_stream_from_file yields exactly the n words in order, followed by one spurious empty word and then a RuntimeError (never a clean StopIteration); composing with byte_stream_2_control_signal therefore yields exactly the n original samples and then raises struct.error.", "quantifier": "all stream lengths, all M<=128, all encodable samples", "why_tests_cant": "Needs every stream length and content; the tail behaviour differs from what a length-bounded consumer sees.", "anchors": ["src/cbadc/utilities.py:write_byte_stream_to_file", "src/cbadc/utilities.py:read_byte_stream_from_file", "src/cbadc/utilities.py:byte_stream_2_control_signal"]}
{"id": "C04", "title": "Reading a list of files delivers only the first file when decoded", "statement": "Reading a list of files yields, per file, the chunks of that file in order followed by one empty word, then RuntimeError; so the concatenation of non-empty words is the concatenation of the files, but a decoder piped after it raises struct.error at the end of the first file, so samples of later files are never delivered.", "quantifier": "all lists of files whose sizes are multiples of the word size, all M<=128", "why_tests_cant": "Arbitrary numbers and sizes of files.", "anchors": ["src/cbadc/utilities.py:read_byte_stream_from_file"]}
{"id": "C05", "title": "Splitting a stream over several files loses nothing and keeps order", "statement": "For words_per_file=w>=1, write_byte_stream_to_files on any finite stream ends by raising StopIteration, having created floor(n/w)+1 files; all but the last hold exactly w words, the last holds n mod w (possibly zero) words and the concatenation of files in index order is the stream. For w=0 it never terminates (creates empty files forever) and consumes nothing.", "quantifier": "all finite streams, all w", "why_tests_cant": "Depends on every relation between n and w, including the exact-multiple case that leaves an empty file.", "anchors": ["src/cbadc/utilities.py:write_byte_stream_to_files"]}
{"id": "C06", "title": "Progress wrapper and array collection protocols", "statement": "show_status(it,length) yields exactly the first min(n,length) items in order; if n>length it consumes exactly length+1 items and ends with RuntimeError (PEP 479), otherwise it ends cleanly; iterator_to_numpy_array(it,size,L) raises for size<1 or L<1, raises StopIteration when fewer than size items are available and otherwise returns exactly the first size items, row k being item k, having consumed exactly size items.", "quantifier": "all streams, lengths and sizes", "why_tests_cant": "Off-by-one behaviour over all n/length relations.", "anchors": ["src/cbadc/utilities.py:show_status", "src/cbadc/utilities.py:iterator_to_numpy_array"]}
{"id": "C07", "title": "CSV control signal reader", "statement": "csv_2_control_signal yields one row per line in order up to the first line whose number of entries differs from M, at which it raises RuntimeError; with msb2lsb each row is reversed, and reversing twice is the identity, so writing rows reversed and reading with msb2lsb returns the original rows.", "quantifier": "all lists of parsed lines, all M", "why_tests_cant": "All file contents.", "anchors": ["src/cbadc/utilities.py:csv_2_control_signal"]}
{"id": "C08", "title": "FixedPoint quantiser in exact arithmetic", "statement": "For number_of_bits n>=1 and max>0: float_to_fixed(v) raises iff |v|>max, otherwise returns an integer k with |k|<=2^(n-1) which is v*2^(n-1)/max truncated towards zero; |fixed_to_float(k)-v| < max/2^(n-1) (one LSB), the round trip never increases magnitude, keeps sign, is monotone, odd and idempotent; fixed_to_float(k) raises iff |k|>2^(n-1) and float_to_fixed(fixed_to_float(k))=k. The value max itself maps to 2^(n-1), which is not representable in an n-bit two's complement word.", "quantifier": "all n>=1, all max>0, all reals v, all integers k", "why_tests_cant": "Uncountably many inputs; extreme values.", "anchors": ["src/cbadc/utilities.py:FixedPoint"]}
{"id": "C09", "title": "FixedPoint in IEEE binary64", "statement": "With the code's actual double arithmetic (scale=int_max/max, v*scale, k/scale) the integer round trip float_to_fixed(fixed_to_float(k))=k fails for concrete n, max, k (result differs from k), whereas it holds for every k with |k|<=2^(n-1) whenever max is a power of two in range.", "quantifier": "refutation by witness; positive part for all n<=53, all power-of-two max, all k", "why_tests_cant": "Rounding failures are sparse; the positive part ranges over 2^53 integers and all exponents.", "anchors": ["src/cbadc/utilities.py:FixedPoint"]}
{"id": "C10", "title": "DigitalControl history: signal and decisions follow the last matching update", "statement": "After any history of control_update calls and resets, for each control m the control signal entry is 1 if s_tilde_m >= offset_m and 0 otherwise, taken at the last call whose time matched the control's phase (|t-t0_m| <= tt/2 + 1e-5|t0_m|), or 0 if there was none since construction or the last reset; the DAC decision is 2*s-1 of that call (0 if none) and the old decision is the decision before that call, and survives resets. A too short observation raises IndexError after the preceding controls have been updated.", "quantifier": "all call histories, all times, observations, offsets and phases", "why_tests_cant": "Arbitrary histories.", "anchors": ["src/cbadc/digital_control/digital_control.py:DigitalControl.control_update", "src/cbadc/digital_control/digital_control.py:DigitalControl.control_signal"]}
{"id": "C11", "title": "DigitalControl DAC waveform selection", "statement": "control_contribution(t) entry m is waveform_m(t or t+T when t<t0_m) times the old decision if t<t_delay else the current decision; with the default step response, t in [0,T) and t_delay=0 it equals exactly the +-1 decision, hence |entry|=1 after the first update, and impulse_response(m,t) is zero outside [0,T] and in every entry but m.", "quantifier": "all control histories, all t", "why_tests_cant": "All histories and times.", "anchors": ["src/cbadc/digital_control/digital_control.py:DigitalControl.control_contribution", "src/cbadc/digital_control/digital_control.py:DigitalControl.impulse_response"]}
{"id": "C12", "title": "control_signal() returns a live view", "statement": "Values returned by control_signal() share storage: after any further updates, every previously returned array reads as the newest signal, so collecting the arrays after n updates without copying yields n copies of the last sample, whereas copies taken at each read are the actual history; after reset() previously returned arrays are frozen for every later history.", "quantifier": "all histories of updates/reads/resets", "why_tests_cant": "Aliasing depends on the history of reads.", "anchors": ["src/cbadc/digital_control/digital_control.py:DigitalControl.control_signal", "src/cbadc/digital_control/digital_control.py:DigitalControl.reset", "src/cbadc/simulator/utilities.py:extended_simulation_result"]}
{"id": "C13", "title": "Only phase-zero controls are ever updated by the simulators", "statement": "If control_update is called only at relative time 0 (as all simulators do, once per period), possibly with resets in between, then a control whose impulse response start t0 satisfies t0 > tt/2 + 1e-5*t0 keeps signal 0 and decision 0 and contributes 0 at every t, for every sequence of observations of any length.", "quantifier": "all simulations of any length, all observation sequences", "why_tests_cant": "An invariant over infinite runs.", "anchors": ["src/cbadc/digital_control/digital_control.py:DigitalControl._setup_clock_phases", "src/cbadc/digital_control/digital_control.py:DigitalControl.control_update", "src/cbadc/simulator/numerical_simulator.py:FullSimulator._full_ordinary_differential_solution"]}
{"id": "C14", "title": "Multi-level quantiser", "statement": "MultiLevelDigitalControl.quantize with n>=1 levels returns j/n for the unique j equal to the number of thresholds (2i+1)/n-1, i<n, not exceeding the input; it is monotone, satisfies Q(-x)=1-Q(x) off the thresholds, and |2Q(x)-1-x| <= 1/n for |x| <= 1+1/n; after any history without reset the signal and decision of a control are those of its last matching update; number_of_levels 0 raises ZeroDivisionError in the constructor.", "quantifier": "all n>=1, all real inputs", "why_tests_cant": "All reals and all n.", "anchors": ["src/cbadc/digital_control/multi_level_digital_control.py:MultiLevelDigitalControl.quantize", "src/cbadc/digital_control/multi_level_digital_control.py:MultiLevelDigitalControl.control_update"]}
{"id": "C15", "title": "Multi-level offsets are ignored", "statement": "For every offsets list accepted by MultiLevelDigitalControl the decisions after any update history are those obtained with all offsets zero.", "quantifier": "all offset lists of length M, all histories", "why_tests_cant": "All offsets and histories; contradicts the documented parameter.", "anchors": ["src/cbadc/digital_control/multi_level_digital_control.py:MultiLevelDigitalControl.__init__", "src/cbadc/digital_control/digital_control.py:DigitalControl.__init__"]}
{"id": "C16", "title": "Dither control", "statement": "After any history of updates at matching time and of switching dither on or off: deterministic controls carry exactly what the wrapped control alone would carry after the same updates; with dithering on, random control m carries table entry ((k*R+m) mod size, m) where R is the number of random controls and k the number of earlier updates made while on, so it visits exactly the rows congruent to m modulo gcd(R,size); with dithering off its decision is exactly 0. The copy taken by the constructor is shallow: the wrapped object's own arrays are driven by the dither control.", "quantifier": "all update counts, R, table sizes and tables, all on/off histories", "why_tests_cant": "Infinite histories; number-theoretic coverage.", "anchors": ["src/cbadc/digital_control/dither_control.py:DitherControl.control_update"]}
{"id": "C17", "title": "unit_element_set candidates", "statement": "The generated columns are nonzero and pairwise different up to sign, and with the default candidates [-1,1,0] the candidate set contains exactly one representative of each +- pair of nonzero vectors of {-1,0,1}^N, (3^N-1)/2 vectors, so for M>=1 the call succeeds iff M<=(3^N-1)/2 and raises Exception otherwise; M=0 returns one column; with a candidate list starting with 0 the set is empty.", "quantifier": "all N, all M", "why_tests_cant": "All N; sets of exponential size.", "anchors": ["src/cbadc/digital_control/utilities.py:unit_element_set"]}
{"id": "C18", "title": "Clock waveform", "statement": "For every valid clock (T>0, 0<tt<=T*min(d,1-d), max_swing=2) clock_edge is T-periodic, bounded by 1 in magnitude, equals +1 between the end of the rising transition and the falling one, -1 in the low phase, and is 0 exactly at the nominal edge instants; the constructor accepts exactly 0<d<=1, tt<=T*min(d,1-d), td<=T, so duty_cycle=1 (documented as allowed) is rejected for every tt>0; for every max_swing below 2 the waveform takes the value 1, above max_value.", "quantifier": "all T, tt, td, duty cycles, all real times", "why_tests_cant": "All real times.", "anchors": ["src/cbadc/analog_signal/clock.py:Clock", "src/cbadc/analog_signal/clock.py:Clock.clock_edge", "src/cbadc/analog_signal/clock.py:Clock._pos_edge"]}
{"id": "C19", "title": "Clock.next_tick", "statement": "next_tick(t) >= t, next_tick(t)-t < T, and if the phase (t-td) mod T exceeds 1e-8 then next_tick(t)-td is an exact multiple of T; for every clock with T<=1e-8 s next_tick(t)=t for all t (never advances to an edge). delay_clock_by_duty_cycle keeps T, tt and the swing, shifts td, resets the duty cycle to 1/2, and raises exactly if the new delay exceeds T or tt exceeds T/2.", "quantifier": "all T>0, td, t real", "why_tests_cant": "All real times; absolute tolerance interplay with period.", "anchors": ["src/cbadc/analog_signal/clock.py:Clock.next_tick"]}
{"id": "C20", "title": "Signal algebra", "statement": "SuperpositionSignal evaluates to the sum and ModulatedSignal to the product of the component values at every t, for all nestings of signals whose call evaluates, and leaves all stored data unchanged; for a ZeroOrderHold operand (whose inherited call replaces the data instead of evaluating) the evaluation raises TypeError and the stored samples are overwritten by the time t, so that later evaluations raise AttributeError.", "quantifier": "all finite families of signals, all t", "why_tests_cant": "All combinations.", "anchors": ["src/cbadc/analog_signal/_analog_signal.py:SuperpositionSignal", "src/cbadc/analog_signal/_analog_signal.py:ModulatedSignal", "src/cbadc/analog_signal/zero_order_hold.py:ZeroOrderHold"]}
{"id": "C21", "title": "Ramp, zero-order-hold and DAC waveforms", "statement": "ZeroOrderHold is (len*T)-periodic for t>=0 and constant on [kT,(k+1)T) with value data[k mod len]; Ramp is periodic with range [offset-A/2, offset-A/2+A*period), i.e. its peak-to-peak value is A*period rather than the documented amplitude A unless period=1; NonReturnToZeroDAC is its amplitude exactly on [t_start,t_end).", "quantifier": "all parameters, all t>=0", "why_tests_cant": "All real times.", "anchors": ["src/cbadc/analog_signal/ramp.py:Ramp.evaluate", "src/cbadc/analog_signal/zero_order_hold.py:ZeroOrderHold.evaluate", "src/cbadc/analog_signal/impulse_responses.py:NonReturnToZeroDAC"]}
{"id": "C22", "title": "BatchEstimator computes the windowed Wiener recursion", "statement": "For every control stream long enough, output number n=j*K1+k of BatchEstimator (0<=k<K1) equals W^T ( sum_{i=0}^{K1+K2-1-k} Ab^i Bb d[n+i] - sum_{i=0}^{n-1} Af^i Bf d[n-1-i] ) with d=2s-1: the forward state is exact over the whole past, whatever the batch boundary, and the lookahead is between K2+1 and K2+K1 samples.", "quantifier": "all streams, all coefficient matrices, all K1>=1,K2>=0, all output indices", "why_tests_cant": "Unbounded stream lengths and arbitrary matrices; state is carried over batch boundaries.", "anchors": ["src/cbadc/digital_estimator/batch_estimator.py:BatchEstimator._compute_batch", "src/cbadc/digital_estimator/batch_estimator.py:BatchEstimator.__next__"]}
{"id": "C23", "title": "FIRFilter is the truncated convolution", "statement": "Output k of FIRFilter (downsample 1, floating point) equals offset + W^T( sum_{i<K2} Ab^i Bb d[k-K2+1+i] - sum_{i<K1} Af^i Bf d[k-K2-i] ), with d=2s-1 for available samples and d=0 before the start of the stream; it is linear and shift invariant in d.", "quantifier": "all streams, matrices, K1>=0, K2>=1", "why_tests_cant": "Unbounded streams, arbitrary matrices.", "anchors": ["src/cbadc/digital_estimator/fir_estimator.py:FIRFilter.__init__", "src/cbadc/digital_estimator/fir_estimator.py:FIRFilter.__next__"]}
{"id": "C24", "title": "IIRFilter equals FIR with infinite lookback", "statement": "Output k of IIRFilter (K2>=1, downsample 1) equals W^T( sum_{i<K2} Ab^i Bb d[k-K2+1+i] - sum_{i>=0} Af^i Bf d[k-K2-i] ); hence its difference to FIRFilter with the same K2 is exactly the omitted tail -W^T sum_{i>=K1} Af^i Bf d[k-K2-i] and the two agree for all k < K1+K2; for K2=0 (accepted by the constructor) the first __next__ raises IndexError.", "quantifier": "all streams, matrices, K1, K2", "why_tests_cant": "Unbounded streams.", "anchors": ["src/cbadc/digital_estimator/iir_estimator.py:IIRFilter.__next__", "src/cbadc/digital_estimator/fir_estimator.py:FIRFilter.__next__"]}
{"id": "C25", "title": "Batch versus IIR alignment", "statement": "BatchEstimator output n with K1=1 and lookahead K2 equals IIRFilter (lookahead K2+1) output n+K2: with a one-sample batch the two estimators are the same filter up to a delay of K2 samples.", "quantifier": "all streams, matrices, K2", "why_tests_cant": "Unbounded streams.", "anchors": ["src/cbadc/digital_estimator/batch_estimator.py:BatchEstimator", "src/cbadc/digital_estimator/iir_estimator.py:IIRFilter"]}
{"id": "C26", "title": "ParallelEstimator equals BatchEstimator under exact diagonalisation", "statement": "If numpy.linalg.eig and pinv are exact on Af and Ab (an invertible eigenvector matrix and its inverse), then for every control signal stream, also malformed or ending in any way, every ParallelEstimator result, exceptions included, equals the BatchEstimator result on the stream in which every non-zero sample entry is replaced by 1. In particular the two agree on every stream of 0/1 samples. They differ as soon as a sample is neither 0 nor 1 (0.5, produced by DitherControl with dithering off).", "quantifier": "all streams, matrices, K1, K2", "why_tests_cant": "Unbounded streams; arbitrary matrices.", "anchors": ["src/cbadc/digital_estimator/parallel_digital_estimator.py:ParallelEstimator._compute_batch", "src/cbadc/digital_estimator/batch_estimator.py:BatchEstimator._compute_batch"]}
{"id": "C27", "title": "Number of estimates delivered by BatchEstimator", "statement": "With stop_after_number_of_iterations=n, on an unbounded stream BatchEstimator delivers exactly (n+1) - ceil((n+1)/(K1+1)) estimates before StopIteration, i.e. not n (each recompute consumes one extra iteration).", "quantifier": "all n, all K1>=1, K2>=0", "why_tests_cant": "All n and K1.", "anchors": ["src/cbadc/digital_estimator/batch_estimator.py:BatchEstimator.__next__"]}
{"id": "C28", "title": "Number of estimates delivered by FIRFilter and IIRFilter", "statement": "With stop_after_number_of_iterations=n>0 and downsample d>=1, FIRFilter delivers floor(n/d) estimates, output j being computed after exactly (j+1)*d samples; IIRFilter delivers ceil(n/d) estimates, output j being computed after j*d+1 samples: the two decimation phases differ for d>1. n=0 means unlimited.", "quantifier": "all n, d, streams", "why_tests_cant": "All n and d.", "anchors": ["src/cbadc/digital_estimator/fir_estimator.py:FIRFilter.__next__", "src/cbadc/digital_estimator/iir_estimator.py:IIRFilter.__next__"]}
{"id": "C29", "title": "End of stream handling in BatchEstimator", "statement": "On a stream of n samples, BatchEstimator delivers floor((n-K2)/K1) complete batches when the stream ends with StopIteration (the incomplete batch is discarded), floor((n+1-K2)/K1) when it is a generator that raises RuntimeError once (exactly one padding sample s=0, i.e. d=-1, is added), and floor((n-K2)/K1)+1 when the iterator keeps raising RuntimeError (the last batch is filled with d=-1); after that every call raises StopIteration.", "quantifier": "all n, K1, K2 and both stream endings", "why_tests_cant": "Arbitrary stream lengths relative to K1 and K2.", "anchors": ["src/cbadc/digital_estimator/batch_estimator.py:BatchEstimator.__next__", "src/cbadc/digital_estimator/batch_estimator.py:BatchEstimator._input"]}
{"id": "C30", "title": "Estimators never overrun their sample buffer", "statement": "No sequence of __next__ calls on BatchEstimator/ParallelEstimator ever raises the internal 'Input buffer full' or 'Control signal buffer not full' exceptions: the number of buffered samples is K2 between batches and K1+K2 when a batch is computed.", "quantifier": "all call sequences, all stream endings", "why_tests_cant": "Invariant over unbounded call histories.", "anchors": ["src/cbadc/digital_estimator/batch_estimator.py:BatchEstimator._input", "src/cbadc/digital_estimator/batch_estimator.py:BatchEstimator._compute_batch"]}
{"id": "C31", "title": "Fixed point FIR filter error bound and overflow", "statement": "With a FixedPoint(n,max) and zero offset every FIR estimate of a binary control stream either raises ArithmeticError or differs from the floating point estimate by less than K3*M*max/2^(n-1) in each component; call k raises exactly when some component of the integer accumulator (plus the offset, which is added in LSB units, not in signal units) exceeds 2^(n-1) in magnitude; when every coefficient row satisfies sum|h|<=max it never raises; construction raises exactly when some |coefficient|>max.", "quantifier": "all streams of +-1 controls, all coefficient arrays", "why_tests_cant": "All streams.", "anchors": ["src/cbadc/digital_estimator/fir_estimator.py:FIRFilter.__next__", "src/cbadc/utilities.py:FixedPoint"]}
{"id": "C32", "title": "number_of_filter_coefficients", "statement": "FIRFilter.number_of_filter_coefficients() equals the number of strictly positive coefficients; it equals the documented number of non-zero coefficients iff no coefficient is negative.", "quantifier": "all coefficient arrays", "why_tests_cant": "All arrays.", "anchors": ["src/cbadc/digital_estimator/fir_estimator.py:FIRFilter.number_of_filter_coefficients"]}
{"id": "C33", "title": "FIR exported tables", "statement": "write_C_header and write_rust_module emit the coefficients in [l][m][k] order so that parsing the emitted nested list returns h transposed to (L,M,K3), for every L,M,K3>=1.", "quantifier": "all shapes and coefficient values", "why_tests_cant": "All shapes.", "anchors": ["src/cbadc/digital_estimator/fir_estimator.py:FIRFilter.write_C_header", "src/cbadc/digital_estimator/fir_estimator.py:FIRFilter.write_rust_module"]}
{"id": "C34", "title": "FIR filter shaping by convolution", "statement": "FIRFilter.convolve(filter) leaves h of length K3; for filter length 1 it scales h; for K3 even and any filter of length K it equals the centred K3-window of the full convolution, so (shifted) polynomial product coefficients; for K3 odd and filter length>1 the assignment raises a shape error.", "quantifier": "all coefficient arrays and filters", "why_tests_cant": "All lengths.", "anchors": ["src/cbadc/digital_estimator/fir_estimator.py:FIRFilter.convolve"]}
{"id": "C35", "title": "Precomputed simulator state is the exact superposition", "statement": "PreComputedControlSignalsSimulator: (a) whatever expm and solve_ivp return, after k steps with piecewise-constant inputs the state equals Phi^k x0 + sum_{i<k} Phi^(k-1-i)(Ctrl (2 s_i - 1) + Pw u_i), where s_i is the control signal handed out by step i, u_i the inputs at the END of step i and the columns of Ctrl and Pw are the step responses computed at construction; (b) if the numerical routines are exact, the control waveforms start at 0 without delay, and the inputs are either held up to the end of each period or sinusoids of one common frequency seen with C = I, D = 0, then every step ends at the (unique) solution of the analog system's differential equation, and all states coincide with those of FullSimulator; (c) the exactness fails when an input changes at the end of a step (zero-order hold), when t_delay > 0, and for sinusoids when C is not the identity.", "quantifier": "all k, matrices, inputs and control policies", "why_tests_cant": "Unbounded time.", "anchors": ["src/cbadc/simulator/numerical_simulator.py:PreComputedControlSignalsSimulator._ordinary_differential_solution"]}
{"id": "C36", "title": "Control-bounded stability of the synthesised chain of integrators", "statement": "For every analog frontend that get_chain_of_integrator returns with its default control (specified by OSR/BW, OSR/T, ENOB or SNR, with or without local feedback, finite gain and excess delay; rho<=0, BW>=0), simulated by FullSimulator from the zero state with an ODE solver that returns end points of exact solutions: for every input with |u(t)|<=1, every order N and every number of steps, the run does not fail and all states stay in [-1,1], at every clock tick and at every instant in between. The same holds for any ChainOfIntegrators whose control gain is at least the input gain of each integrator and whose period is at most 1/(|beta_n|+|kappa_n|).", "quantifier": "all N, all specifications, all bounded inputs, all times", "why_tests_cant": "Uncountably many inputs and unbounded time.", "anchors": ["src/cbadc/synthesis/chain_of_integrators.py:get_chain_of_integrator", "src/cbadc/analog_system/chain_of_integrators.py:ChainOfIntegrators", "src/cbadc/digital_control/digital_control.py:DigitalControl.control_update", "src/cbadc/analog_system/analog_system.py:AnalogSystem.derivative"]}
{"id": "C37", "title": "AnalogSystem validates shapes", "statement": "The AnalogSystem constructor succeeds iff A is N x N, B N x L (or a vector of N, taken as a column), CT N_tilde x N (or a vector of N, taken as a row), Gamma N x M and Gamma_tildeT M_tilde x N when given, and the optional D, B_tilde, A_tilde have the matching shapes; it stores exactly these matrices (absent D, B_tilde, A_tilde as zeros). Then derivative is total on vectors of matching size, equals A x + B u + Gamma c entry by entry and is linear in (x,u,c); with Gamma omitted derivative raises TypeError for every argument.", "quantifier": "all shapes and values", "why_tests_cant": "All shape combinations.", "anchors": ["src/cbadc/analog_system/analog_system.py:AnalogSystem.__init__", "src/cbadc/analog_system/analog_system.py:AnalogSystem.derivative"]}
{"id": "C38", "title": "control_observation with partial arguments", "statement": "For every valid system: control_observation(t,x) is Gamma_tildeT x; with u and s it is Gamma_tildeT x + B_tilde u + A_tilde s; with u but s=None it raises TypeError for every input (for systems with at least one control and one control observation) instead of returning Gamma_tildeT x + B_tilde u.", "quantifier": "all systems and vectors", "why_tests_cant": "All inputs.", "anchors": ["src/cbadc/analog_system/analog_system.py:AnalogSystem.control_observation"]}
{"id": "C39", "title": "chain() is series composition", "statement": "For every list of analog systems where consecutive output/input sizes match and the first has as many inputs as outputs, the derivative of chain(systems) at the concatenated state equals the concatenation of each system's derivative when system l+1 is driven by CT_l x_l + D_l u_l; the output is that of the last system; controls act block-diagonally. When the first system's number of inputs differs from its number of outputs chain() raises.", "quantifier": "all lists of systems, all states, inputs, controls", "why_tests_cant": "Arbitrary list length and matrices.", "anchors": ["src/cbadc/analog_system/topology.py:chain"]}
{"id": "C40", "title": "stack() is parallel composition", "statement": "stack(systems) derivative and outputs are the concatenations of the systems' own derivatives and outputs for every non-empty list; its control observation drops every B_tilde, so equals the concatenation of the components' own observations iff all B_tilde u terms vanish.", "quantifier": "all lists of systems", "why_tests_cant": "Arbitrary list length.", "anchors": ["src/cbadc/analog_system/topology.py:stack"]}
{"id": "C41", "title": "tf2abcd realises the transfer function", "statement": "tf2abcd(b,a) (a without its leading 1) is accepted iff len(b)=len(a)+1 and a is not empty; for every accepted pair, every s and every input the steady states of the returned (A,B,C,D) at s are exactly the multiples of (s^i)_i with input a(s) and output b(s); so over the complex numbers at every s with a(s)<>0 there is exactly one steady state and its gain is b(s)/a(s).", "quantifier": "all orders, coefficients and s in any commutative ring; complex s for the quotient", "why_tests_cant": "All orders and all frequencies.", "anchors": ["src/cbadc/analog_system/topology.py:tf2abcd"]}
{"id": "C42", "title": "zpk2abcd realises the zero-pole-gain transfer function up to the sign of the gain", "statement": "Whatever zpk2abcd(z,p,k) accepts (poles and zeros that np.allclose does not mistake for conjugates) has the transfer function |k| prod(s-z)/prod(s-p): away from the poles every input has a steady state and every steady state has this gain; a negative gain k is silently replaced by |k|. Distinct real poles with at most as many real zeros are always accepted; two equal or nearly equal real poles divide by zero.", "quantifier": "all pole and zero lists, all gains, all complex s, every sorting order numpy may choose for ties", "why_tests_cant": "All frequencies and coefficients.", "anchors": ["src/cbadc/analog_system/topology.py:zpk2abcd"]}
{"id": "C43", "title": "Chain-of-integrators and leap-frog matrices", "statement": "For parameter vectors of consistent length, entry n of the derivative is rho_n x_n + beta_n x_{n-1} + alpha_n x_{n+1} + (Gamma s)_n with x_{-1}=u, and control observation m is minus the inner product of the state with column m of Gamma divided by its norm; an N x 1 kappa means a diagonal; a zero column makes the control observation undefined (nan). The length checks are constructed but never raised: a rho of length one for N>=2 integrators is accepted and is added to every entry of A.", "quantifier": "all N and parameters", "why_tests_cant": "All N.", "anchors": ["src/cbadc/analog_system/chain_of_integrators.py:ChainOfIntegrators", "src/cbadc/analog_system/leap_frog.py:LeapFrog"]}
{"id": "C44", "title": "Leap-frog poles lie in band", "statement": "For get_leap_frog(OSR,N,BW) the system matrix has the N eigenvalues i*omega_BW*cos(k*pi/(N+1)), k=1..N, with explicit eigenvectors; all lie strictly inside the band |omega|<omega_BW.", "quantifier": "all N, BW, OSR, delta", "why_tests_cant": "All N.", "anchors": ["src/cbadc/synthesis/leap_frog.py:get_leap_frog", "src/cbadc/analog_system/leap_frog.py:LeapFrog"]}
{"id": "C45", "title": "Synthesis parameters are consistent", "statement": "get_chain_of_integrator and get_leap_frog accept exactly the specifications with N>=1, non-degenerate rates and a period of at least 2e-14, and return: clock period exactly T for (OSR,N,T); 2*BW*OSR*T=1; kappa=beta and 2 T |beta| = 1 for the chain, with gain g=|beta|/(2 pi BW) solving g^(2N)(2N+1)=xi*snr where snr=3/2*4^ENOB or 10^(SNR/10); 2T|beta|=|delta| and alpha*beta=-(pi BW)^2 for leap-frog; excess_delay in [0,1] has no effect on the default control; the switched-capacitor control delivers the same charge per period up to a factor 1-exp(-25). With ENOB present get_leap_frog(OSR,N,T) does not honour T.", "quantifier": "all real parameters", "why_tests_cant": "All parameters.", "anchors": ["src/cbadc/synthesis/chain_of_integrators.py:get_chain_of_integrator", "src/cbadc/synthesis/leap_frog.py:get_leap_frog"]}
{"id": "C46", "title": "Sigma-delta ABCD import", "statement": "For every order 1<=N<=10, every ABCD matrix with N+1 rows and at least N+2 columns, T<>0: ctsd_abcd2af returns a system with A[i][j]=C[i][j]/T off the diagonal and 0 on it, B[i]=B_i/T, Gamma[i]=A_i/T*dac_scale (diagonal with local control), Gamma_tilde equal to the output row (last entry 1 when missing; identity with local control) and B_tilde the direct term, every entry of magnitude at most 1e-8 counting as 0; so diagonal state entries are silently dropped. From N=11 on coefficient names collide (e{11}{1} and e{1}{11}) and a wrong coefficient appears. T=0 raises ZeroDivisionError, a missing feedback column IndexError.", "quantifier": "all N and ABCD matrices", "why_tests_cant": "String-key collisions appear only from order 11 on and the lost diagonal only with lossy integrators; examples use low orders.", "anchors": ["src/cbadc/synthesis/continuous_time_sigma_delta.py:_schreier_abcd_to_ulm_dict", "src/cbadc/synthesis/continuous_time_sigma_delta.py:ctsd2abc", "src/cbadc/synthesis/continuous_time_sigma_delta.py:ctsd2gamma"]}
{"id": "C47", "title": "Figures of merit conversions are mutually inverse", "statement": "snr_to_enob/enob_to_snr and snr_to_dB/snr_from_dB are inverse bijections (snr>0), strictly increasing; one extra bit is exactly a factor 4 in snr; FoM_S computed from the survey's P/fs for a given FoM_S and SNDR gives back that FoM_S; likewise FoM_W.", "quantifier": "all reals", "why_tests_cant": "All reals.", "anchors": ["src/cbadc/fom.py:snr_to_enob", "src/cbadc/fom.py:enob_to_snr", "src/cbadc/fom.py:snr_to_dB", "src/cbadc/fom.py:snr_from_dB", "src/cbadc/fom.py:FoM_S", "src/cbadc/fom.py:FoM_W"]}
{"id": "C48", "title": "Netlist connectivity", "statement": "After any sequence of connect(first, second[, name]) calls in which no call joins two nets that both exist already, two terminals are on the same net iff they are related by the equivalence closure of the calls, and the net carries the name given by the last call that touched it; hence with distinct terminal names the emitted netlist has exactly the requested connectivity. Without that discipline only the second terminal moves: connect(a,b), connect(c,d), connect(b,d) leaves c off the merged net. Distinct nets whose naming terminals share a name are emitted as one net, and a node connected to ground as second argument is not grounded.", "quantifier": "all call sequences", "why_tests_cant": "Arbitrary call histories.", "anchors": ["src/cbadc/circuit/__init__.py:SubCircuitElement.connect", "src/cbadc/circuit/__init__.py:Port"]}
{"id": "C49", "title": "Terminal lookup", "statement": "After any sequence of add_terminal appends on a circuit element terminal names are pairwise distinct ignoring case and lookup by name (any case) returns the terminal added under this name; inserting at an index skips the duplicate check, so lookup may return a terminal other than the last inserted.", "quantifier": "all add sequences", "why_tests_cant": "Arbitrary histories.", "anchors": ["src/cbadc/circuit/__init__.py:CircuitElement.add_terminal", "src/cbadc/circuit/__init__.py:CircuitElement.__getitem__"]}
{"id": "C50", "title": "Device models are de-duplicated by name only", "statement": "The device models emitted for a netlist are exactly one model for each (spice model, model name) pair, namely the first one encountered in traversal order, in that order: parameters of later models of the same name are dropped.", "quantifier": "all circuits", "why_tests_cant": "All hierarchies.", "anchors": ["src/cbadc/circuit/__init__.py:DeviceModel", "src/cbadc/circuit/__init__.py:SubCircuitElement._get_model_set"]}
{"id": "C51", "title": "Op-amp RC front end realises the state-space model", "statement": "With ideal op-amps (no input current, a virtual short that persists) the netlist generated by OpAmpFrontend forces d/dt(X_p-X_n) = A x + B u + Gamma s for every A, B, Gamma (any sign pattern) and capacitance C>0. With the generated finite-gain op-amp cells the residual virtual-ground voltage w obeys both dx = A x + B u + Gamma s + dw + (sum of |row entries|) w and dx = -2 pi GBWP (2 w + x/DC_gain), i.e. an inverting op-amp with twice the requested gain and gain-bandwidth product. Instance names are distinct; a system without Gamma is rejected.", "quantifier": "all matrices, C>0, all node voltages", "why_tests_cant": "All matrices and sign patterns.", "anchors": ["src/cbadc/circuit/opamp.py:OpAmpFrontend"]}
{"id": "C52", "title": "Gm-C front end realises the state-space model", "statement": "With ideal transconductors the netlist generated by GmCFrontend forces d/dt(X_p-X_n) = A x + B u + Gamma s for every A, B, Gamma and C != 0; with a finite DC_gain g there is an additional leak of exactly max|B|/(4g) per state, so a plain integrator settles at 4 g times its input rather than g times. Instance names are distinct; a missing Gamma raises ValueError and a zero max|B|*C with a finite gain ZeroDivisionError.", "quantifier": "all matrices, C>0, all node voltages", "why_tests_cant": "All matrices and sign patterns.", "anchors": ["src/cbadc/circuit/ota.py:GmCFrontend"]}
{"id": "C53", "title": "LC ladder model", "statement": "The LC ladder state equations of LCFrontend are exactly Kirchhoff's laws for a ladder with one series input resistance Rin, and are passive: with no input and no control, d/dt(C sum v^2 + 2L sum i^2) = -2 v_0^2/Rin, for every ladder length. The emitted netlist obeys the same equations but with the input resistance 2*Rin (two resistors in series) and control magnitudes |Gamma_mm|/2.", "quantifier": "all ladder lengths and element values", "why_tests_cant": "All lengths.", "anchors": ["src/cbadc/circuit/lc_tank.py:LCFrontend"]}
{"id": "C54", "title": "Testbench differential input", "statement": "The differential voltage TestBench applies for a sinusoid of amplitude A, frequency f, phase p and offset o is A*sin(2 pi f t + p*pi/180) + 2*o for t>=0: the amplitude is preserved, the offset is doubled and the phase, radians in Sinusoidal, is read as degrees; it equals Sinusoidal.evaluate when offset and phase are 0. The rails are vdd and vdd/2; fewer signals than front-end inputs is an error.", "quantifier": "all signals and times", "why_tests_cant": "All parameters.", "anchors": ["src/cbadc/circuit/testbench.py:TestBench"]}
{"id": "C55", "title": "SPICE raw file parsing", "statement": "NGSpiceSimulator.parse records one row per falling crossing of the clock through vcm (plus one if the trace starts low), in order, up to the capacity of the preallocated array; rows beyond the number of crossings keep their previous content. Row r holds, for the first M highlighted traces (the P outputs), the sample at the r-th crossing divided by 2 vcm and rounded to 0, 1/2, 1 with thresholds 1/3 and 2/3; the rounding is monotone and idempotent but is not rounding to the nearest level. On a trace of n high/low periods there are n rows, n+1 when it starts low, so with one row per period the last falling edge is then dropped. No highlighted traces is ValueError, too few IndexError.", "quantifier": "all traces of any length", "why_tests_cant": "All traces.", "anchors": ["src/cbadc/circuit/simulator.py:NGSpiceSimulator.parse", "src/cbadc/circuit/simulator.py:_float_to_ternary"]}
{"id": "C56", "title": "RLS training solves the regularised least-squares problem", "statement": "One real reference: rls(x, y, delta, lambda_, delay, epochs, shuffle) leaves the unique filter (taps and offset) that minimises delta*lambda^n*|filter - initial filter|^2 + sum_i lambda^(n-1-i)*(y_i - prediction_i)^2 over the n samples in the order they were processed (all epochs, shuffled or not), and returns the mean squared error of that filter. A second call continues the same problem with all samples of both calls; its delta has no effect.", "quantifier": "all data streams, all dimensions, all delta>0, lambda>0", "why_tests_cant": "All data streams.", "anchors": ["src/cbadc/digital_estimator/adaptive_filter.py:AdaptiveFIRFilter.rls"]}
{"id": "C57", "title": "Adaptive filter batching", "statement": "batch(signal,K) of a signal with M channels yields n-K windows, window i starting at sample i: the last complete window (starting at n-K) is always dropped, so a signal of exactly K samples yields none, and fewer than K samples raise ValueError. Row m, column k of a window is sample i+k of channel m, except when M = K, where rows and columns are swapped. _batch pairs window delay+i with reference sample i and truncates both to the shorter one.", "quantifier": "all signals and K", "why_tests_cant": "All lengths.", "anchors": ["src/cbadc/digital_estimator/adaptive_filter.py:batch", "src/cbadc/digital_estimator/adaptive_filter.py:AdaptiveFIRFilter._batch"]}
{"id": "C58", "title": "LMS gradient is the gradient of the loss", "statement": "For real data and L=1 the value gradient() returns is exactly half the gradient of the loss() with respect to every filter coefficient and the offset. With full batches and zero momentum and a learning rate of at most 2 over the mean squared norm of the windows (extended by the constant 1), lms never increases the loss over any number of epochs, and decreases it strictly unless the filter was already optimal.", "quantifier": "all data, all filter values", "why_tests_cant": "All data.", "anchors": ["src/cbadc/digital_estimator/adaptive_filter.py:AdaptiveFIRFilter.gradient", "src/cbadc/digital_estimator/adaptive_filter.py:AdaptiveFIRFilter.loss"]}
{"id": "C59", "title": "Sine wave modulator", "statement": "SineWaveModulator accepts exactly systems with an even number of states and of controls (else ValueError). Its control observation is that of the state turned by minus the carrier phase: the coordinates are partitioned into pairs, (x_j, x_{j+N/4}) within each half when 4 divides N and a crossed pattern otherwise, each pair is rotated, the norm is preserved, rotations by opposite phases cancel, so a state riding on the carrier is observed as if there were no carrier. With as many controls as states the derivative rotates the control contribution by the carrier phase; with at most half as many it only scales it by the cosine, so at a quarter period the control has no effect. modulate and demodulate return one shared buffer: after any history it shows the rotation of the last call, so an array returned earlier is overwritten.", "quantifier": "all vectors, all times, all even N", "why_tests_cant": "All inputs and histories.", "anchors": ["src/cbadc/analog_system/modulator.py:SineWaveModulator"]}
{"id": "C60", "title": "Peak search masks", "statement": "On a nonempty spectrum find_n_sinusoidals always succeeds and returns strictly increasing indices inside [0,size). For mask_width >= 2 they are exactly the bins c-h..c+h-1 (h = mask_width//2) inside the spectrum around n peaks c, each the first bin of largest magnitude outside the windows c'-min_peak_dist..c'+mask_width-1 of the peaks before it; for n=1 that is one contiguous window. A mask_width of at most 1 returns no index, not even the peak; to the right of a peak mask_width bins are cleared, so a peak further away than min_peak_dist can be missed. An empty spectrum is a ValueError, also from find_sinusoidal.", "quantifier": "all spectra, n, mask widths", "why_tests_cant": "All spectra.", "anchors": ["src/cbadc/utilities.py:find_n_sinusoidals", "src/cbadc/utilities.py:find_sinusoidal"]}
{"id": "C61", "title": "Pulse source timing", "statement": "PulseVoltageSource: the emitted ngspice waveform is above mid-level from rise/2 for exactly period/2 + (rise-fall)/2 of each period (half the period for equal edges), starts without the computed delay_time, and has rise + width + fall = period/2 + rise; the spectre source receives the pulse width as its period and empty delay, rise, fall, width and phase.", "quantifier": "all period, rise, fall times", "why_tests_cant": "All parameters.", "anchors": ["src/cbadc/circuit/components/sources.py:PulseVoltageSource"]}
{"id": "C62", "title": "Two sinusoidal inputs in the precomputed simulator", "statement": "The precomputed sinusoidal term uses an array of frequencies of shape (n,1) against an (N,n) array: it raises for n>=2 unless N=n, in which case row i uses frequency i for every input, so the result is the superposition of the inputs' responses only if n=1 (or all frequencies coincide).", "quantifier": "all N, n, frequencies, phases, times", "why_tests_cant": "All parameters.", "anchors": ["src/cbadc/simulator/numerical_simulator.py:PreComputedControlSignalsSimulator._ordinary_differential_solution"]}
{"id": "C63", "title": "reset() makes the control signal int8", "statement": "After reset() the signal array has dtype int8: a MultiLevelDigitalControl is binary from then on (signal 1 and decision +1 iff the input is at least 1-1/n, else signal 0 and decision -1), and a DitherControl with dithering off drives -1 instead of 0.", "quantifier": "all histories containing a reset, all levels and inputs", "why_tests_cant": "Needs a reset somewhere in an arbitrary history.", "anchors": ["src/cbadc/digital_control/digital_control.py:DigitalControl.reset", "src/cbadc/digital_control/multi_level_digital_control.py:MultiLevelDigitalControl.control_update", "src/cbadc/digital_control/dither_control.py:DitherControl.control_update"]}
{"id": "C64", "title": "DitherControl with loop delay", "statement": "For every DitherControl with t_delay > 0 control_contribution(t) raises AttributeError for every t < t_delay, because the attribute with the previous decisions is never created.", "quantifier": "all dither controls with at least one control, all t < t_delay", "why_tests_cant": "All configurations and times.", "anchors": ["src/cbadc/digital_control/dither_control.py:DitherControl.__init__", "src/cbadc/digital_control/digital_control.py:DigitalControl.control_contribution"]}
{"id": "C65", "title": "sos2abcd realises the cascade of second order sections", "statement": "sos2abcd accepts exactly the non-empty tables of sections with a0<>0; the state space system it returns has 2 states per section and the transfer function prod_r (b0 s^2+b1 s+b2)/(a0 s^2+a1 s+a2): away from the poles every input has a steady state and every steady state has this gain.", "quantifier": "all tables of real sections, all complex s", "why_tests_cant": "unit tests compare a few frequency points of a few filters; the claim is an identity of rational functions for every table and every frequency", "anchors": ["src/cbadc/analog_system/topology.py:310-369", "src/cbadc/analog_system/topology.py:8-94"]}
{"id": "C66", "title": "FullSimulator without input signals is forward Euler", "statement": "With an empty list of input signals the derivative handed to solve_ivp by FullSimulator does not depend on the integration variable: an exact solver returns x + T (A x + Gamma s(t)) with the state of the start of the step, i.e. one forward Euler step per clock period; this differs from the solution of the differential equation of analog system and control (which PreComputedControlSignalsSimulator does return).", "quantifier": "all systems, states, step waveforms and periods", "why_tests_cant": "The deviation is a property of the equation that is integrated, for all systems; tests compare few trajectories with tolerances.", "anchors": ["src/cbadc/simulator/numerical_simulator.py:FullSimulator._full_ordinary_differential_solution"]}
{"id": "C67", "title": "Batch least-squares training", "statement": "lstsq on real data with any number of references leaves for every reference taps and an offset whose mean squared error no other FIR filter of the same size undercuts, provided numpy.linalg.lstsq returns a least-squares solution. On complex data the system is set up with conjugated windows but predictions conjugate the filter as well, so an exactly solvable problem is fitted to the complex conjugate of the reference.", "quantifier": "all data, dimensions, delays and solvers meeting their contract", "why_tests_cant": "Optimality over all filters and all data; the conjugation error shows only on data whose reference is not real.", "anchors": ["src/cbadc/digital_estimator/adaptive_filter.py:AdaptiveFIRFilter.lstsq"]}
{"id": "C68", "title": "Adaptive filters with several references", "statement": "With two or more references a freshly constructed AdaptiveFIRFilter cannot predict or train: call() raises ValueError unless the number of windows is 1 or the number of references, rls always raises ValueError on non-empty data, and lms raises ValueError unless the first batch has exactly as many windows as there are references; in that case offset number b is applied to window b instead of reference b.", "quantifier": "all data, all L>=2", "why_tests_cant": "All batch sizes and numbers of references.", "anchors": ["src/cbadc/digital_estimator/adaptive_filter.py:AdaptiveFIRFilter.call", "src/cbadc/digital_estimator/adaptive_filter.py:AdaptiveFIRFilter.rls", "src/cbadc/digital_estimator/adaptive_filter.py:AdaptiveFIRFilter.lms"]}
{"id": "C69", "title": "Adaptive filter after lstsq", "statement": "After lstsq call() predicts every reference from its own taps and its own offset for any number of references and windows, but get_offset(), and any further lms or rls on non-empty data, raise IndexError.", "quantifier": "all filters and data", "why_tests_cant": "All sequences of trainings.", "anchors": ["src/cbadc/digital_estimator/adaptive_filter.py:AdaptiveFIRFilter.lstsq", "src/cbadc/digital_estimator/adaptive_filter.py:AdaptiveFIRFilter.get_offset"]}
{"id": "C70", "title": "Adaptive IIR prediction", "statement": "AdaptiveIIRFilter.predict (one reference) returns n-K values satisfying out[i] = sum of numerator taps times window i + conj(offset) + sum_k denominator[k]*out[i-K+k], with out taken as zero before the first value.", "quantifier": "all filters, all signals of at least K samples, K>=1", "why_tests_cant": "All signals and filters.", "anchors": ["src/cbadc/digital_estimator/adaptive_filter.py:AdaptiveIIRFilter.predict"]}
{"id": "C71", "title": "Sub-circuit name check", "statement": "check_subckt_names raises ValueError exactly when some sub-circuit contains, at any depth, a sub-circuit of its own name, provided no cached name list is out of date; the lists are cached at the first check, so a clash added afterwards is missed, and siblings of equal name with different contents are never reported although both definitions are emitted.", "quantifier": "all hierarchies", "why_tests_cant": "Arbitrary nesting depth and histories of checks and additions.", "anchors": ["src/cbadc/circuit/__init__.py:SubCircuitElement.check_subckt_names", "src/cbadc/circuit/__init__.py:SubCircuitElement._check_subckt_names"]}
{"id": "C72", "title": "Sub-circuit definitions", "statement": "get_sub_circuit_definitions (ngspice) returns the definition text of every sub-circuit of the hierarchy exactly once, in order of first occurrence with outer ones first.", "quantifier": "all hierarchies", "why_tests_cant": "All hierarchies of any depth with shared sub-circuits.", "anchors": ["src/cbadc/circuit/__init__.py:SubCircuitElement.get_sub_circuit_definitions"]}
{"id": "C73", "title": "Signal-to-noise ratio from a spectrum", "statement": "snr_spectrum_computation is the ratio of the powers in the two masks (negative indices count from the end), infinite exactly when the noise power is not positive, IndexError for an index outside; it is invariant under scaling of the spectrum and reordering of the masks. With signal and noise present snr_spectrum_computation_extended satisfies sinad = 1 + S/(N+H), thd^2 = H/S, thd_n^2 = thd^2 + 1/snr, (sinad-1) thd_n^2 = 1; with the default harmonics mask H is the power at zero frequency, so thd is not zero for a spectrum without harmonics.", "quantifier": "all spectra, masks, windows, sampling frequencies", "why_tests_cant": "All spectra and masks; relations between the figures.", "anchors": ["src/cbadc/utilities.py:snr_spectrum_computation", "src/cbadc/utilities.py:snr_spectrum_computation_extended"]}
{"id": "C74", "title": "Filter coefficients of the estimators sample the continuous-time filters exactly", "statement": "compute_filter_coefficients with the numpy solver returns Af, Ab, Bf, Bb, W such that, for symmetric solutions Vf, Vb of the two Riccati equations, every solution of the forward filter mf' = (A - Vf C eta2^-1 C^T) mf + Gamma s(t) driven by the control waveforms of one period with decisions c satisfies mf(T) = Af mf(0) + Bf c, every solution of the backward filter mb' = (A + Vb C eta2^-1 C^T) mb + Gamma s(t) satisfies mb(0) = Ab mb(T) + Bb c, and (Vf + Vb) W = B. With such coefficients every estimate of BatchEstimator is W^T (mb(kT) - mf(kT)), mf at rest at time 0 and mb at rest at the end of the look-ahead.", "quantifier": "all analog systems, control waveforms (step, NRZ, RC, any offsets), periods, eta2 not 0, all decision streams and batch sizes; external solvers exact whenever they return", "why_tests_cant": "The continuous-time filters are infinite objects; a test compares numbers for one system with another numerical solver.", "anchors": ["src/cbadc/digital_estimator/_filter_coefficients.py:compute_filter_coefficients", "src/cbadc/digital_estimator/_filter_coefficients.py:_numerical_solver", "src/cbadc/digital_estimator/batch_estimator.py:BatchEstimator"]}
{"id": "C75", "title": "Filter coefficients: choice of solver and mid_point", "statement": "The default mpmath solver satisfies the same specification as the numpy solver if every control waveform is on during the whole period, and returns the same coefficients whatever mid_point is; it is wrong for a waveform that starts later (its _mpmath method ignores t0). The sympy solver is right for waveforms that are constant over the period, raises NotImplementedError for mid_point, and is wrong for decaying waveforms (the signal of the backward filter is not reversed). mid_point=True of the numpy solver leaves the forward coefficients those of the sampling instants kT for constant waveforms, and makes the backward ones wrong.", "quantifier": "all analog systems, digital controls, eta2 not 0, solvers exact whenever they return", "why_tests_cant": "Agreement of three solvers on all waveforms; the failing cases need waveforms that the tests do not use.", "anchors": ["src/cbadc/digital_estimator/_filter_coefficients.py:_mp_solver", "src/cbadc/digital_estimator/_filter_coefficients.py:_analytical_solver", "src/cbadc/digital_estimator/_filter_coefficients.py:_mid_point", "src/cbadc/analog_signal/impulse_responses.py"]}
{"id": "C76", "title": "Frequency response of the estimator", "statement": "In sinusoidal steady state, for a system without direct term, the estimate W^T (mb - mf) formed by the two continuous-time filters is the regularised least squares estimate of the input (weight eta2) from the difference between what the outputs would be without control and what they are. Hence noise_transfer_function is the magnitude of the estimate for a unit amplitude at one output, and signal_transfer_function the estimate for a unit input while the control keeps the outputs at zero, a real number in [0,1). With a direct term D the estimator ignores it and the reported functions are not those of the estimator.", "quantifier": "all analog systems (D = 0), frequencies off the poles, eta2 > 0, all solutions of the Riccati equations with Vf + Vb invertible; pinv exact on invertible matrices", "why_tests_cant": "Relates frequency-domain formulas to time-domain filters obtained from Riccati solutions, for every system and frequency.", "anchors": ["src/cbadc/digital_estimator/batch_estimator.py:noise_transfer_function", "src/cbadc/digital_estimator/batch_estimator.py:signal_transfer_function", "src/cbadc/digital_estimator/_filter_coefficients.py"]}
{"id": "C77", "title": "Transfer functions of analog system and estimator", "statement": "transfer_function_matrix gives the response of the outputs to the inputs (general: to sources at the states) at every frequency of the array. noise_transfer_function and signal_transfer_function are the regularised least squares responses; with one input |G_r|/(|G|^2+eta2) and |G|^2/(|G|^2+eta2), and with eta2 = AnalogSystem.eta2(BW) the latter is 1/2 at 2 pi BW. control_signal_transfer_function raises TypeError without Gamma and ValueError if there are not as many outputs as states, and is right if C^T is the identity but not otherwise (it omits C^T). general_transfer_function is right in magnitude for one output but not for two (phases are dropped before the sum).", "quantifier": "all analog systems, frequencies off the poles, eta2 > 0; pinv and inv exact on invertible matrices", "why_tests_cant": "Correct values for every system and frequency; the failing cases need several outputs or an output matrix that the tests do not use.", "anchors": ["src/cbadc/analog_system/analog_system.py:transfer_function_matrix", "src/cbadc/analog_system/analog_system.py:eta2", "src/cbadc/digital_estimator/batch_estimator.py:control_signal_transfer_function", "src/cbadc/digital_estimator/batch_estimator.py:general_transfer_function"]}
{"id": "C78", "title": "Noise and harmonic budgets", "statement": "For one input white_noise_sensitivities distributes the noise so that all states contribute equally (peak squared magnitude on the frequency grid) and the contributions add up to input_power/target_snr times the largest peak; so the requested SNR is met only if that peak is at most 1 (refuted in general). With several inputs white_noise_balance raises ValueError unless there are as many states, and then uses the maximum of another input. max_harmonic_estimate gives harmonics inversely proportional to the peak magnitudes, the largest being 1/sfdr; their total may exceed the largest magnitude over sfdr, and the frequencies searched leave the band (natural logarithms as exponents of ten).", "quantifier": "all analog systems, bandwidths, eta2, targets for which the calls return; any pinv", "why_tests_cant": "Budgets are only plausible numbers to a test; the claim relates them to the maximum over a grid for every system.", "anchors": ["src/cbadc/digital_estimator/batch_estimator.py:white_noise_balance", "src/cbadc/digital_estimator/batch_estimator.py:white_noise_sensitivities", "src/cbadc/digital_estimator/batch_estimator.py:max_harmonic_estimate"]}
{"id": "C79", "title": "Estimates are samples of the least squares input", "statement": "The estimates BatchEstimator returns for one batch are the samples, at the sampling instants, of one continuous-time input: among all inputs u and states x of the analog system that are consistent with the control decisions from the start up to the end of the look-ahead, the one that minimises the integral of |u|^2 + |C^T x|^2/eta2 plus the cost of the states at both ends given by the Riccati solutions. The minimiser is unique: any other input costs more by at least the energy of the difference. This input is continuous within the control periods.", "quantifier": "all analog systems, control waveforms and periods, eta2 > 0, all decision streams, batch and look-ahead sizes, all batches; coefficients that satisfy the specification of C74 with positive semidefinite Riccati solutions whose sum is invertible", "why_tests_cant": "Optimality over an infinite-dimensional set of inputs for every decision stream.", "anchors": ["src/cbadc/digital_estimator/batch_estimator.py:BatchEstimator", "src/cbadc/digital_estimator/_filter_coefficients.py:compute_filter_coefficients"]}
{"id": "C80", "title": "A quadrature front end is its baseband front end on a carrier", "statement": "get_bandpass(analog_frontend, fc, ...) accepts exactly the baseband front ends with a control gain, at least one state and control and, without `modulate`, as many controls and observations as states, a non-zero first gain and a carrier that is no multiple of the control frequency. The envelope e^{-i 2 pi fc t}(x + i y) of the returned system obeys the differential equation of the baseband system, driven by the demodulated inputs and the demodulated controls; without `modulate` (equal gains) the controls are scaled and turned so that over one control period they remove from every envelope exactly the value observed delta before the beginning of that period, whatever phi. Its poles are the baseband poles shifted by plus and minus 2 pi fc. `scalar_input` is the non-scalar front end with inputs u and -u. The control is a new one with twice the signals, the same clock, unit steps and no delay. Not kept: waveforms and delay of the baseband control, unequal gains, the direct path D; fc = 0 is refused.", "quantifier": "all valid baseband systems, controls, carriers, phi, delta, all trajectories, inputs and observation times", "why_tests_cant": "Continuous-time equivalence for every system, every carrier and every trajectory.", "anchors": ["src/cbadc/synthesis/quadrature.py:get_bandpass"]}
{"id": "C81", "title": "Chains of oscillators: poles, gains and what cannot be used", "statement": "A chain returned by get_chain_of_oscillators has period 1/(2 BW OSR), control gain BW OSR and exactly the poles rho + i(+-2 pi fp + 2 pi BW cos(j pi/(N+1))), j = 1..N. With a bandwidth, ENOB or SNR never give a front end (always an exception). The returned control has N signals while the system has 2N controls: for N >= 1 evaluating the system with the control vector of its own control is a ValueError.", "quantifier": "all N, BW, OSR, T, rho, fp; all values of ENOB, SNR, xi; all states, inputs and control vectors", "why_tests_cant": "Eigenvalues for every order, and failure for every parameter choice.", "anchors": ["src/cbadc/synthesis/quadrature.py:get_chain_of_oscillators", "src/cbadc/synthesis/quadrature.py:_analog_system_factory"]}
{"id": "C82", "title": "Parallel leap-frogs: couplings and poles", "statement": "get_parallel_leapfrog without fps succeeds exactly for M = 3 and M = 4 (when get_leap_frog does); with fps it needs 3, 6 or, for other M >= 2, M(M-1) values. For M = 3, 4 the result is M copies of the leap-frog, all fed by the one input, where branch a drives branch b > a with gain fps[b(b-1)/2+a] and is driven back with minus it. Its poles are exactly those of the leap-frog shifted by i times the eigenvalues of the coupling: 0, +-|fps| for M = 3; the sums and differences +-r +-r' of two explicit frequencies for M = 4. The default couplings do not resonate at fp: for M = 3 the resonances are 0 and sqrt(3) fp.", "quantifier": "all ENOB, N, BW, fp, fps; all states, inputs, controls; all complex numbers as candidate poles", "why_tests_cant": "Eigenvalues for every order and every coupling.", "anchors": ["src/cbadc/synthesis/quadrature.py:get_parallel_leapfrog"]}
{"id": "C83", "title": "NUV estimates are samples of the least energy input of reweighted least squares", "statement": "For a square, symmetric CT and exact numerical routines, batch j of a NUVEstimator works on the window of K1+K2 decisions starting at sub-period j K1 (every control sample counts `oversample` times, decision 2s-1). It runs num_iterations+1 passes; each finds the input, continuous within the periods, of least cost (deviation of the first state from the prior + input energy / covU^2 + distances of CT x from +-bound_y at the sub-period boundaries weighted by the current variances) among all inputs and state trajectories of the analog system with these decisions, and only this one attains it; between passes the variances become max(distance/gamma, 1e-100). Sample i >= 1 of the batch is the value of the input of the last pass at the end of period i-1 of the window, divided by covU; sample 0 is -covU B^T q where the first state is m - V q. The first batch starts with mean 0, covariance 1e12 I, variances 1. In particular the estimates are not the values of this input unless covU = 1.", "quantifier": "all analog systems, controls, parameters, control signal streams, all batches j; optimal among all inputs and trajectories", "why_tests_cant": "Optimality over a function space, for every system and every batch of an unbounded run.", "anchors": ["src/cbadc/digital_estimator/nuv_estimator.py:__init__", "src/cbadc/digital_estimator/nuv_estimator.py:_compute_batch", "src/cbadc/digital_estimator/nuv_estimator.py:__next__"]}
{"id": "C84", "title": "NUV passes improve on each other", "statement": "For gamma > 0 every pass of a batch has a robust cost (prior deviation + input energy/covU^2 + Huber penalties of slope 2 gamma on the distances of the outputs from both bounds) not larger than the pass before; the cost with absolute values, 2 gamma(|y-b|+|y+b|), which penalises |y| > b only, grows by at most 2 gamma^2 1e-100 per output sample.", "quantifier": "all systems, parameters with gamma > 0, streams, batches and passes", "why_tests_cant": "A monotonicity statement over all data.", "anchors": ["src/cbadc/digital_estimator/nuv_estimator.py:_compute_batch"]}
{"id": "C85", "title": "What NUV batches carry over", "statement": "The mean m' and covariance V' stored after a batch describe the state at sample K1-1 of the batch given the prior and everything before: the least cost of reaching the state z there is c0 + (z-m')^T V'^-1 (z-m') (in a form valid for singular V'), with the variances of the last pass; the variances of sample K1-1 are carried over too. The next batch starts at sample K1, so its prior is one sample late; it is not the arrival cost at sample K1. With K1 = 1 the prior never changes.", "quantifier": "all systems, parameters, streams, batches; all inputs and trajectories reaching any state", "why_tests_cant": "Dynamic programming identity over a function space for every batch.", "anchors": ["src/cbadc/digital_estimator/nuv_estimator.py:_compute_batch"]}
{"id": "C86", "title": "Protocol of the NUV estimator", "statement": "K1 < 1 or K2 < 0 raise, oversample = 0 is a ZeroDivisionError, without iterator every next raises. When CT has not as many rows as columns no call ever returns an estimate, whatever the source. When oversample does not divide K1+K2 no call ever returns an estimate; when it does not divide K1, at most K1 estimates are ever returned. Otherwise a source of n samples gives exactly the estimates of the complete batches, then the exception of the source, and afterwards StopIteration from generators (from objects the same exception again); a persistent RuntimeError of the source pads the next batch with samples 0 and delivers its K1 estimates before StopIteration.", "quantifier": "all parameters, sources, numbers of calls", "why_tests_cant": "Statements about all call sequences and all sources.", "anchors": ["src/cbadc/digital_estimator/nuv_estimator.py:__init__", "src/cbadc/digital_estimator/nuv_estimator.py:__next__", "src/cbadc/digital_estimator/nuv_estimator.py:_input"]}
{"id": "C87", "title": "The global control minimises the output energy of the next period", "statement": "get_global_control keeps A, B, CT, Gamma and the digital control, sets D to zero (whatever it was) and replaces Gamma_tildeT, B_tilde, A_tilde. With exact numerical routines and phases in [0,T], entry m of the new control observation at state x, input u (held) and controls a is, for the control own = m + M - M_tilde, the amplitude with the least energy of CT x over [phi_m, phi_m + T]; it does not depend on the amplitude of own itself, and the energy as a function of this amplitude is a parabola around it, so a decision +1 has at most the energy of -1 exactly when the observation is >= 0. In this computation the controls after own are zero and every waveform ends at the end of the clock period. Hence for a control that starts at a phase > 0 and is held for a whole period (as the delayed clocks of the multi phase circuits do) the decision can be the worse one. Fewer phases than observations: IndexError.", "quantifier": "all analog systems, digital controls, phases in [0,T], states, inputs, control amplitudes", "why_tests_cant": "Optimality over all amplitudes for every system and state; the unit tests only compare single matrices.", "anchors": ["src/cbadc/analog_frontend.py:get_global_control"]}
{"id": "C88", "title": "inverse_state_trajectory returns the map from start to integral and its inverse", "statement": "With exact numerical routines inverse_state_trajectory(A, T) = (res, X): for every trajectory of x' = A x the integral of x over [0,T] is res x(0), and x(0) = X times the integral; for every vector v there is a trajectory that starts in X v and has integral v. When some trajectory that does not start in 0 has integral 0 (an oscillator over a full turn) there is no result.", "quantifier": "all square A, all T >= 0, all trajectories", "why_tests_cant": "A statement about all trajectories of all systems.", "anchors": ["src/cbadc/analog_frontend.py:inverse_state_trajectory"]}
{"id": "C89", "title": "ButterWorth(N, Wn) is the Butterworth filter", "statement": "For every N >= 1 and Wn > 0, given the Butterworth poles from scipy in any order, the constructor succeeds with N states, one input, one output and no control; all eigenvalues of A have negative real part; the response at 0 is 1; its squared magnitude at w is 1/(1 + (w/Wn)^(2N)), hence 1/2 at Wn and strictly decreasing in |w|; transfer_function_matrix returns a response with this magnitude.", "quantifier": "all orders N >= 1, all Wn > 0, all frequencies, any order of the poles, any argsort", "why_tests_cant": "A statement about every order and all frequencies; the state space form depends on how poles are paired.", "anchors": ["src/cbadc/analog_system/filters.py:ButterWorth", "src/cbadc/analog_system/topology.py:chain"]}
{"id": "C90", "title": "ChebyshevI(N, Wn, rp) has rp dB of ripple up to Wn", "statement": "For every N >= 1, Wn > 0, rp > 0, given the poles and the gain of a type I Chebyshev design, the constructor succeeds with N states, one input, one output and no control; all eigenvalues have negative real part; the response at 0 is positive; the squared magnitude at w is 1/(1 + (10^(rp/10) - 1) T_N(w/Wn)^2), hence within [10^(-rp/10), 1] for |w| <= Wn, 10^(-rp/10) at Wn, and strictly decreasing from there; transfer_function_matrix returns a response with this magnitude.", "quantifier": "all orders N >= 1, all Wn > 0, all rp > 0, all frequencies, any order of the poles, any argsort", "why_tests_cant": "A statement about every order and all frequencies.", "anchors": ["src/cbadc/analog_system/filters.py:ChebyshevI"]}
{"id": "C91", "title": "ChebyshevII(N, Wn, rs) attenuates by rs dB from Wn on", "statement": "For every N >= 1, Wn > 0, rs > 0 such that no two poles that are not conjugate have imaginary parts of the same size (always so for N <= 3), given the zeros, poles and gain of a type II Chebyshev design, the constructor succeeds with N states, one input, one output and no control; all eigenvalues have negative real part; the response at 0 is 1; the squared magnitude at w <> 0 is T^2/(10^(rs/10) - 1 + T^2) with T = T_N(Wn/w), hence at most 10^(-rs/10) for |w| >= Wn, 10^(-rs/10) at Wn and strictly decreasing in |w| before; transfer_function_matrix returns a response with this magnitude.", "quantifier": "all orders N >= 1, all Wn > 0, all rs > 0 without ties, all frequencies, any order of poles and zeros, any argsort", "why_tests_cant": "A statement about every order and all frequencies.", "anchors": ["src/cbadc/analog_system/filters.py:ChebyshevII"]}
{"id": "C92", "title": "Cauer and IIRDesign realise the zeros, poles and absolute gain of the scipy design", "statement": "Whenever scipy returns distinct poles and distinct zeros, closed under conjugation, imaginary parts of the same size only for conjugates, at least one pole and not more zeros than poles, Cauer and IIRDesign succeed with one state for each pole, one input, one output and no control; every eigenvalue is one of the poles; the response at every w where iw is not a pole is |k| prod(iw - z)/prod(iw - p). The sign of k is lost.", "quantifier": "all such zeros, poles, gains and all frequencies, any argsort", "why_tests_cant": "A statement about all designs and all frequencies.", "anchors": ["src/cbadc/analog_system/filters.py:Cauer", "src/cbadc/analog_system/filters.py:IIRDesign"]}
{"id": "C93", "title": "The digital control netlist makes the decisions of the digital control", "statement": "In every solution of the netlist of circuit DigitalControl (ideal XSPICE elements), after each rising edge of the clock (seen against VCM) control m outputs out_high/out_low on S{m}_P/S{m}_N or the reverse, and holds them until the next edge, according to where row m of analog_system.control_observation, applied to the differential voltages of states, inputs and control signals at the edge, plus (out_high+out_low)/2 - VCM lies relative to in_low, in_high. With thresholds at 0 and VCM in the middle of the output levels this is the sign of the observation. The circuit can be built if and only if there are as many controls (after the dither offset) as rows in Gamma_tildeT, otherwise IndexError (TypeError without Gamma_tildeT).", "quantifier": "all analog systems, thresholds, output levels, clock waveforms, states, inputs, controls and clock edges", "why_tests_cant": "A statement about all solutions of netlists of every size; the summer's inputs are wired by computed positions.", "anchors": ["src/cbadc/circuit/digital_control.py:DigitalControl", "src/cbadc/circuit/digital_control.py:MultiInputComparator", "src/cbadc/circuit/components/comparator.py:DifferentialOutputClockedComparator"]}
{"id": "C94", "title": "The multi-phase netlist delays the clock of control m by its phase", "statement": "In every solution of the netlist of circuit MultiPhaseDigitalControl control m decides as in C93, at the edges of the clock delayed by the t0 of control m. It can be built if and only if the number of controls after the dither offset is the number of rows of Gamma_tildeT and every control, counted from the first, has a t0.", "quantifier": "all analog systems, delays, thresholds, levels, clock waveforms and clock edges", "why_tests_cant": "A statement about all solutions of netlists of every size.", "anchors": ["src/cbadc/circuit/digital_control.py:MultiPhaseDigitalControl", "src/cbadc/circuit/components/analog_delay.py:AnalogDelay"]}
{"id": "C95", "title": "The dither control netlist: deterministic controls, random controls, their shared nets and unused parameters", "statement": "In every solution of the netlist of circuit DitherControl with K random controls and a single-phase deterministic control, control m >= K decides on row m - K as in C93. The random controls output the random sequence sampled at the rising edges of the clock against ground. All random controls share the nets of the flip-flop outputs, so that their outputs are the same waveform: with K >= 2 and different sequences the netlist has no solution. A multi-phase deterministic control cannot be dithered (the constructor raises). The timing parameters of the constructor have no effect on the netlist unless all controls are random.", "quantifier": "all analog systems, K, sequences, thresholds, levels, timing parameters, clock waveforms and clock edges", "why_tests_cant": "A statement about all solutions of netlists of every size; the defects show only for K >= 2 or in the emitted model cards.", "anchors": ["src/cbadc/circuit/digital_control.py:DitherControl", "src/cbadc/circuit/components/reference_source.py:ReferenceSource"]}
{"id": "C96", "title": "Every node of the differential comparator has one driver; the single-ended one shorts its output", "statement": "In the netlist of DifferentialOutputClockedComparator no node is driven by two elements, for all parameters. In that of ClockedComparator the output node OUT is driven by the input ADC and by the DAC.", "quantifier": "all parameters", "why_tests_cant": "No test elaborates the single-ended comparator; the clash comes from the names of unnamed nets.", "anchors": ["src/cbadc/circuit/components/comparator.py:ClockedComparator"]}
{"id": "C97", "title": "Quadrature signals are the baseband pair turned by the carrier; phase and offset have no effect", "statement": "The signals returned by get_quadrature_signal_pair are the real and the imaginary part of amplitude * (i(t) + j q(t)) * exp(j w t), so that the sum of their squares is that of the baseband signals times amplitude^2. The parameters phase and offset are ignored. SineWaveModulator evaluates to 1/sqrt(2) Re((i + j q) exp(-j w t)), i.e. it uses the opposite sign of q.", "quantifier": "all amplitudes, frequencies, phases, offsets, baseband signals and times", "why_tests_cant": "An identity for all times and signals; ignored parameters are not seen when tests use the defaults.", "anchors": ["src/cbadc/analog_signal/quadrature.py:get_quadrature_signal_pair", "src/cbadc/analog_signal/quadrature.py:QuadratureSignal.evaluate", "src/cbadc/analog_signal/quadrature.py:SineWaveModulator.evaluate"]}
{"id": "C98", "title": "Sinc pulse: peak, zeros, bound, continuity, and the differences between its three evaluations", "statement": "For bandwidth B > 0 SincPulse.evaluate is continuous, offset + amplitude at t0, offset at t0 + k/(2B) for integers k <> 0, and never further than |amplitude| from the offset. _mpmath is the same without the offset, and raises ZeroDivisionError at t0. The expression returned by symbolic is a different signal: its argument lacks the factor pi.", "quantifier": "all amplitudes, positive bandwidths, t0, offsets and times", "why_tests_cant": "Continuity, bounds and zeros over all real times.", "anchors": ["src/cbadc/analog_signal/sinc_pulse.py:SincPulse"]}
{"id": "C99", "title": "Random signals: which value is held when", "statement": "Binary, ternary and Gaussian signals evaluated at ascending times that include all multiples of T hold the n-th drawn value on [nT, (n+1)T). For other times the period drifts: with gaps up to g the n-th value is seen at a time between nT and n(T+g)+T, and it is possible that the value at 3T is still the third one. The uniform signal has the n-th value on (nT, (n+1)T] whenever no gap exceeds T; tick moves on by one value and one period. The index never leaves the buffer of 1024 values. A sum or product of signals can be constructed if and only if no Gaussian signal takes part (AttributeError).", "quantifier": "all periods, random sequences, sequences of evaluation times and numbers of buffers", "why_tests_cant": "Stateful: depends on the whole sequence of evaluations, over any number of buffer refills.", "anchors": ["src/cbadc/analog_signal/random.py:_FiniteRandomSignal.evaluate", "src/cbadc/analog_signal/random.py:GaussianReferenceSignal", "src/cbadc/analog_signal/random.py:UniformReferenceSignal", "src/cbadc/analog_signal/_analog_signal.py:SuperpositionSignal"]}
{"id": "C100", "title": "demodulate shifts the spectrum along the last axis only", "statement": "demodulate along the last axis (or of a vector) multiplies sample n by exp(-j Omega n): magnitudes stay, demodulating with -Omega undoes it, a tone of frequency w becomes one of w - Omega. Along axis 0 (the default) of an r x c array with r <> 1, the result is an r x r array for c = 1, it is modulated along the wrong axis for c = r, and ValueError otherwise.", "quantifier": "all shapes, arrays and frequencies", "why_tests_cant": "Shape-dependent broadcasting over all shapes; identities for all frequencies.", "anchors": ["src/cbadc/digital_estimator/decimation_and_demodulation.py:demodulate"]}
{"id": "C101", "title": "NumpySimulator replays the rows in order and restarts at reset, but is not iterable", "statement": "After any history of calls, a reset and k steps, next gives row k of the array (of the file), StopIteration when there is none. iter of a NumpySimulator raises TypeError: it cannot be used in a for loop.", "quantifier": "all arrays and histories of next and reset", "why_tests_cant": "Any history of calls.", "anchors": ["src/cbadc/simulator/numpy_simulator.py:NumpySimulator"]}
{"id": "C102", "title": "The emitted op-amp and Gm-C test benches are the control loop they stand for, in units of the supply voltage", "statement": "In every solution of the whole test bench netlist (sources, front end, digital control inside it; ideal components) with supply vdd, clock period T and transition time tt <= T/2: the states X{n} are continuous, obey x' = A x + B u + Gamma s between the decision instants kT + tt/2, the control signals OUT{m} hold +vdd or -vdd between those instants, and at each one become +vdd (-vdd) when the control observation of the states, the inputs and the previous control signals is positive (negative). u is amplitude * sin(2 pi f t + phase) + 2 * offset. With the Gm-C front end A has the leakage of C52 subtracted on the diagonal. As long as no observation is exactly zero the solution is determined by the states and control signals at the first decision, and equals vdd times the loop with unit control signals and input u / vdd.", "quantifier": "all analog systems, supply voltages, clock periods, transition times, sinusoidal inputs, capacitors, solutions of the netlist and times", "why_tests_cant": "A statement about all solutions of a hierarchy of netlists for all times; the repository has no SPICE in its tests.", "anchors": ["src/cbadc/circuit/testbench.py:TestBench", "src/cbadc/circuit/testbench.py:OpAmpTestBench", "src/cbadc/circuit/opamp.py:OpAmpFrontend", "src/cbadc/circuit/ota.py:GmCFrontend", "src/cbadc/circuit/digital_control.py:DigitalControl"]}
{"id": "C103", "title": "Iterating over a SPICE simulation of an emitted test bench yields the decisions of the control loop, from a single run", "statement": "Iterating an NGSpiceSimulator of an op-amp or Gm-C test bench (ideal components, supply vdd, clock period T, at least one control signal) runs ngspice once and yields ceil(t_end / T) rows, then raises StopIteration on every further call. If the run has a time point in the low phase before the first edge, in each high phase and in each low phase up to edge n, then row r (1 <= r <= n) consists of (1 + s_m / vdd) / 2 for the control signals s_m in force before the r-th clock edge, that is the decisions of edge r-1; row 0 is read before any decision. By C102 these are the control signals of the ideal loop whenever no observation is exactly zero. A call that fails (templates, ngspice, parsing) leaves the array unchanged, and the next call starts the whole simulation again. Parsing a second file that has fewer edges leaves rows of the first in place. The copy in cbadc.simulator.simulator records the same rows, together with the voltages of the P state nodes alone at one instant within half a period before the edge; its get_sampled_state_trajectories always raises ValueError.", "quantifier": "all analog systems, supplies, clocks, inputs, solutions of the netlists, time grids of the run, stop times, numbers of calls, failures of the external program", "why_tests_cant": "The repository's tests never run ngspice, and no finite set of raw files covers all time grids and waveforms.", "anchors": ["src/cbadc/circuit/simulator.py:NGSpiceSimulator", "src/cbadc/simulator/simulator.py:NGSpiceSimulator", "src/cbadc/circuit/testbench.py:TestBench"]}
{"id": "C104", "title": "The Riccati solvers based on eigenvectors return the stabilising solution, and the filters built on it forget", "statement": "If the eigenvalues of the Hamiltonian matrix that sympy puts first (as many as there are states) have negative real parts, the matrix _analytical_care returns is a symmetric solution X of the Riccati equation A^T X + X A + Q - X B R^-1 B^T X = 0, A - B R^-1 B^T X has only eigenvalues with negative real parts, and X is the only solution with that property. _numpy_care sorts the eigenvalues itself and returns that solution if exactly as many eigenvalues as states are stable and the upper block of their eigenvectors is invertible. With such solutions the forward filter A - Vf C eta2^-1 C^T and the time-reversed backward filter -(A + Vb C eta2^-1 C^T) of the estimators are stable, and the coefficients Af, Ab of the numpy backend forget: |Af^k x| and |Ab^k x| are at most K rho^k |x| with rho < 1. The order of the eigenvalues matters: with the unstable one first the solution returned does not stabilise, and with imaginary eigenvalues _analytical_care returns a matrix although the equation has no solution at all.", "quantifier": "all real matrices A, B and symmetric Q, R of any size; all routines for inverses and eigenvectors that are exact whenever they return; all analog systems, digital controls, eta2", "why_tests_cant": "Stability and uniqueness quantify over all eigenvalues and over all solutions of a quadratic matrix equation; geometric decay is a statement about all powers.", "anchors": ["src/cbadc/digital_estimator/_filter_coefficients.py:_analytical_care", "src/cbadc/digital_estimator/_filter_coefficients.py:_numpy_care", "src/cbadc/digital_estimator/_filter_coefficients.py:care"]}
{"id": "C105", "title": "The brute force Riccati iteration keeps solutions, ends, and otherwise returns something close to its start", "statement": "bruteForceCare starts from the result of _numpy_care. If that is a solution, it is returned unchanged. In general the matrix returned is symmetric and is the first iterate within the tolerances of the one before, which bounds the residual of the Riccati equation only after multiplication with the step tau 0.99^k; the iteration moves by at most 100 tau times the largest residual on the way. It ends if the residuals stay bounded, and in any case once the time limit has passed (BruteForceCareException). With the default tolerances it may therefore return a matrix with a residual of at least 1 although a solution exists (2 x + 1 = 0). care falls back to scipy only after TypeError or PrecisionExhausted of sympy and to the brute force iteration only after LinAlgError of scipy; every other exception is passed on.", "quantifier": "all matrices, tolerances, steps, time limits, numbers of iterations", "why_tests_cant": "The loop runs tens of thousands of steps with the default constants, and statements about all start values and all iterates are not finite.", "anchors": ["src/cbadc/digital_estimator/_filter_coefficients.py:bruteForceCare", "src/cbadc/digital_estimator/_filter_coefficients.py:care"]}
{"id": "C106", "title": "Batch, FIR and IIR estimators approach one common estimate, geometrically in look-ahead and look-back", "statement": "With coefficients of the numpy backend and a Riccati solver that returns stabilising solutions there are C and rho < 1, constants of the coefficients alone, such that for every endless stream of decisions and every instant k there is one vector y with: every batch estimate of instant k is within C rho^(K2+1) of y, every FIR estimate (any downsampling that hits k, any offset) within C (rho^K1 + rho^K2) of y plus the offset, every IIR estimate within C rho^K2 of y, whatever the number of decisions read. Hence look-ahead and look-back beyond one bound give any accuracy for all streams at once. Changing decisions at least a periods before and b periods after instant k changes its estimates by at most C (rho^a + rho^b). The stored coefficients of FIR and IIR estimator decay in the same way away from the instant they estimate.", "quantifier": "all systems and controls with exact external routines, all streams of decisions in [0, 1], instants, K1, K2, downsampling factors, offsets, iteration limits", "why_tests_cant": "The limit value uses infinitely many decisions and the bound is uniform in all streams; tests compare a few runs with fixed K1 and K2.", "anchors": ["src/cbadc/digital_estimator/batch_estimator.py:BatchEstimator", "src/cbadc/digital_estimator/fir_estimator.py:FIRFilter", "src/cbadc/digital_estimator/iir_estimator.py:IIRFilter", "src/cbadc/digital_estimator/_filter_coefficients.py:compute_filter_coefficients"]}
{"id": "C107", "title": "warm_up, filter_lag and set_iterator of the estimators", "statement": "warm_up() without arguments discards max(0, K2 - 2) outputs of an FIR or IIR estimator and none of a batch estimator, leaves filter_lag() at min(0, K2 - 2) respectively -1, and without downsampling the output number j that follows is the estimate of instant j - 1 - filter_lag(): so a warm FIR or IIR filter (K2 >= 2) starts one instant before the first sample, unlike the batch estimator; with downsampling the lag, counted in samples, is spent in outputs and more is thrown away. warm_up(n) discards n outputs and leaves the lag as it was; a second warm_up() does nothing; a control signal that is too short gives StopIteration with the lag reduced by the outputs obtained; without an iterator every call raises Exception, warm_up() only if the lag is positive. set_iterator in the middle of a run continues exactly like a run on the concatenated control signal if the first iterator was read exactly to its end, for FIR, IIR and batch estimators; after the estimator has run dry this is false (the failing call already rotated the buffer), and a batch estimator that met a RuntimeError yields nothing any more, whatever iterator it gets.", "quantifier": "all coefficients over any commutative ring, K1, K2, downsampling factors, offsets, limits, control signals of any length, split points and replacement iterators", "why_tests_cant": "The alignment holds for every K2, stream and split point; no test calls warm_up or set_iterator on a used estimator.", "anchors": ["src/cbadc/digital_estimator/batch_estimator.py:BatchEstimator.warm_up", "src/cbadc/digital_estimator/batch_estimator.py:BatchEstimator.filter_lag", "src/cbadc/digital_estimator/batch_estimator.py:BatchEstimator.set_iterator", "src/cbadc/digital_estimator/fir_estimator.py:FIRFilter.__init__", "src/cbadc/digital_estimator/iir_estimator.py:IIRFilter.__init__"]}
{"id": "C108", "title": "The ADC survey: selections tile, every dated publication is plotted once, envelopes", "statement": "select_bw_and_enob returns, in order, exactly the publications with BW[0] <= Nyquist frequency < BW[1] and ENOB[0] <= ENOB < ENOB[1], and refuses reversed ranges; a grid of ascending edges splits the selection of its whole range into disjoint, exhaustive parts; publications without SNR or Nyquist frequency are in no selection, however wide. The four point clouds of the plots contain every publication up to 2021 exactly once, later or undated ones never. architectures() lists every architecture once in the order of first appearance. The Walden envelope is even, increasing, 0.67 fJ at low and proportional to f at high frequency within a factor sqrt 2; the Schreier envelope falls from 184.76 dB by at most 10 dB per decade, with the corresponding asymptote. The jitter lines are drawn with swapped arguments, without effect.", "quantifier": "all survey contents including missing entries, all ranges and grids, all frequencies", "why_tests_cant": "Tests would need the downloaded spreadsheet and can only try a few ranges; exhaustive tiling and asymptotics are statements about all of them.", "anchors": ["src/cbadc/fom.py:MurmannSurvey.select_bw_and_enob", "src/cbadc/fom.py:MurmannSurvey._Murmann_style_data_and_legends", "src/cbadc/fom.py:MurmannSurvey.architectures", "src/cbadc/fom.py:MurmannSurvey._FoMW_envelope", "src/cbadc/fom.py:MurmannSurvey._FoMS_envelope"]}
{"id": "C109", "title": "Conversion error: estimates equal the filtered input up to the bound on the observed states", "statement": "Feed a batch, FIR or IIR estimator with the decisions of an analog system that is driven by an input u (any trajectory of x' = A x + B u + Gamma s). The estimate for instant k equals W^T (ef - eb), where ef and eb solve linear equations driven by B u and by the observations C^T x only, starting from the states at the ends of the used periods: decisions and control enter in no other way. Consequently, with constants C and rho < 1 of the coefficients alone, the estimate differs from the forwards and backwards filtered input by at most C (b + rho^(k-lo) |x(lo)| + rho^(hi-k) |x(hi)|) when the observations are bounded by b, and two runs with the same input but arbitrary different decisions are estimated alike up to the same bound for the difference of their observations and end states.", "quantifier": "all analog systems with good Riccati solutions, all digital controls, inputs, trajectories, decision streams, instants, look-backs and look-aheads", "why_tests_cant": "Tests compare one simulated sine with a tolerance; the bound is a statement about all inputs and all bounded trajectories.", "anchors": ["src/cbadc/digital_estimator/batch_estimator.py:BatchEstimator._compute_batch", "src/cbadc/digital_estimator/fir_estimator.py:FIRFilter.__next__", "src/cbadc/digital_estimator/iir_estimator.py:IIRFilter.__next__", "src/cbadc/digital_estimator/batch_estimator.py:BatchEstimator._compute_filter_coefficients"]}
{"id": "C110", "title": "Sinusoids are estimated with the gain that signal_transfer_function reports", "statement": "When the inputs are sinusoids of one frequency, whatever decisions the control has taken, the estimates returned by the batch, FIR and IIR estimators are samples of sinusoids whose phasors solve the regularised least squares problem of the transfer function matrix at that frequency, up to an error of at most C times the bound on the observations plus a transient proportional to the boundary states and the amplitude that decays geometrically with the distance to both ends of the window used. With a single sinusoidal input the corresponding estimate is the same sinusoid, without delay and phase shift, multiplied by the number in [0,1) that signal_transfer_function returns for this frequency.", "quantifier": "all systems without direct term with sound solvers and a stabilising, diagonalisable Riccati solution, all frequencies off the poles, all amplitudes and phases, all decision streams, instants and window lengths; the constants do not depend on frequency, amplitude or run", "why_tests_cant": "A test can look at the spectrum of one simulated run; that the measured gain tends to the computed one, for every frequency and control and uniformly in the instant, is an asymptotic statement about all runs.", "anchors": ["src/cbadc/digital_estimator/batch_estimator.py:BatchEstimator.signal_transfer_function", "src/cbadc/digital_estimator/batch_estimator.py:BatchEstimator.__next__", "src/cbadc/digital_estimator/fir_estimator.py:FIRFilter.__next__", "src/cbadc/digital_estimator/iir_estimator.py:IIRFilter.__next__", "src/cbadc/digital_estimator/_filter_coefficients.py"]}
{"id": "C111", "title": "Synthesise, simulate, estimate: the pipeline returns the input sinusoid times the reported signal transfer function", "statement": "For every frontend returned by get_chain_of_integrator with its default control and non-positive rho, FullSimulator started from rest with the input a cos(w t + ph), 0 <= a <= 1, w not 0, and a batch, FIR or IIR estimator with the coefficients computed for this frontend: when the ODE solver answers exactly, the estimate of instant j is one number, equal to g a cos(w j T + ph), where [g] in [0,1) is what signal_transfer_function reports for w, up to C (1 + (rho^(j-lo) + rho^(hi-j)) (1 + P a)). C and rho < 1 do not depend on frequency, amplitude, phase, window or solver; P only on the frequency; lo and hi are the first and last period used by the estimator. No assumption on stability or on the sequence of decisions is made: both follow from the synthesis.", "quantifier": "all accepted keyword arguments, orders, frequencies, amplitudes up to 1, phases, windows, instants, exact solvers", "why_tests_cant": "A test runs one converter on one sinusoid for a finite time; the constants here are uniform in frequency, amplitude, phase and run length, and the claim spans four modules.", "anchors": ["src/cbadc/synthesis/chain_of_integrators.py:get_chain_of_integrator", "src/cbadc/simulator/numerical_simulator.py:FullSimulator", "src/cbadc/digital_control/digital_control.py:DigitalControl", "src/cbadc/digital_estimator/batch_estimator.py:BatchEstimator", "src/cbadc/digital_estimator/fir_estimator.py:FIRFilter", "src/cbadc/digital_estimator/iir_estimator.py:IIRFilter"]}
{"id": "C112", "title": "The reported frequency response of an FIR estimator, conjugated, is what the estimates show", "statement": "fir_filter_transfer_function(Ts) returns the K3 // 2 + 1 frequencies q / (K3 Ts) and a response of shape (L, K3 // 2 + 1, M) (not (L, K3 // 2, M) as documented); Ts = 0 raises. The coefficients are the inverse transform of the response. Once K3 samples were read, control values that are sinusoids of a reported frequency give estimates that are the sinusoid times the conjugate of the response (relative to the oldest sample of the window) plus the offset, and for decisions of period K3 the transform of K3 consecutive estimates is the conjugate response times the transform of the control values, plus the offset in bin 0. The response itself, unconjugated, gives wrong phases.", "quantifier": "all coefficient arrays (also after convolve), all sample periods, bins, phasors, control sequences, offsets and instants", "why_tests_cant": "A test compares one filter with one FFT; orientation of the taps (phase sign) is only visible when the response is compared with the running estimator, for every control sequence.", "anchors": ["src/cbadc/digital_estimator/fir_estimator.py:FIRFilter.fir_filter_transfer_function", "src/cbadc/digital_estimator/fir_estimator.py:FIRFilter.__next__"]}
{"id": "C113", "title": "Verilog-AMS text of the summer and integrator models against the ngspice models", "statement": "The contribution statement that SummerModel.get_verilog_ams writes, read as a Verilog-AMS expression, has the value of the XSPICE summer for all offsets, gains and input voltages, whatever signs and zeros the parameters have, provided some input gain is not zero; when all are zero the statement is not an expression. Lists of different lengths raise ValueError. The statement of IntegratorModel is gain times the time integral of the input plus the absolute value of the offset: for negative offsets this differs from the XSPICE integrator. The initial value has the right sign.", "quantifier": "all parameter lists and values, all input waveforms, any integration operator", "why_tests_cant": "The text is never run by the test suite (no Verilog-AMS simulator); reading the printed signs requires the grammar of expressions, for arbitrary many terms.", "anchors": ["src/cbadc/circuit/models/summer.py:SummerModel.get_verilog_ams", "src/cbadc/circuit/models/integrator.py:IntegratorModel.get_verilog_ams", "src/cbadc/circuit/templates/verilog_ams/summer.vams.j2", "src/cbadc/circuit/templates/verilog_ams/integrator.vams.j2"]}
{"id": "C114", "title": "Elements of a sub-circuit: names, adding and replacing", "statement": "Instance names are the letter of the class followed by lower case text; an empty name raises. In any sub-circuit built by attribute assignments, add and connect, every element is stored under its instance name, and the names are distinct even when case is ignored, as SPICE does (different arguments may however give one name). Assigning an element to a key in use replaces the element: this succeeds exactly when the new element has a terminal of every name the old one has, otherwise ValueError and the elements stay; then the new terminals are on the nets of the old ones of the same name and all other terminals are connected as before. The nets touched are renamed after the terminals of the element, so that the emitted netlist may short two separate nets; a replaced element may be emitted under the letter of another class; elements with unnamed terminals (resistors, capacitors, inductors, sources) can never be replaced.", "quantifier": "all sequences of assignments, add and connect calls, all elements and names", "why_tests_cant": "A test replaces one element in one circuit; that connectivity is kept for arbitrary wiring, and when net names collide, needs all circuits.", "anchors": ["src/cbadc/circuit/__init__.py:SubCircuitElement.__setattr__", "src/cbadc/circuit/__init__.py:SubCircuitElement.add", "src/cbadc/circuit/__init__.py:CircuitElement.__init__", "src/cbadc/circuit/components/passives.py:Resistor.__init__"]}
{"id": "C115", "title": "Synthesised leap-frogs are stable, for inputs somewhat below full scale", "statement": "Let a frontend come from get_leap_frog (by ENOB, SNR, or OSR) and be simulated from rest by FullSimulator with an exact ODE solver. With r = (2 pi BW T)^2 (for OSR: (pi/OSR)^2) every input bounded by 1 - (2^(N-1) - 1) r keeps state n within |delta|^(n+1) for ever, at and between the clock ticks; for smaller inputs v also within |delta|^(n+1) (1 + r - (1 - v + r)/2^(n+1)). More generally any integrators coupled to both neighbours keep given levels if each control overcomes what the neighbours at their levels feed in, within one period. Unlike for chains of integrators, full scale inputs are not safe: from a state in [-1, 1] the first state may leave that range within one period.", "quantifier": "all arguments of get_leap_frog, all numbers of states, all input signals within the bound, all numbers of periods", "why_tests_cant": "A test simulates a few inputs for finitely many periods; boundedness for every input and for ever is an invariant of a hybrid system whose states influence each other in both directions.", "anchors": ["src/cbadc/synthesis/leap_frog.py:get_leap_frog", "src/cbadc/analog_system/leap_frog.py:LeapFrog.__init__", "src/cbadc/simulator/numerical_simulator.py:FullSimulator.__next__", "src/cbadc/digital_control/digital_control.py:DigitalControl.control_update"]}
{"id": "C116", "title": "End to end for leap-frogs: synthesis, simulation and estimate of a sinusoid", "statement": "For a leap-frog frontend from get_leap_frog, simulated by FullSimulator (exact ODE solver) with a sinusoid of amplitude a at most 1 - (2^(N-1) - 1)(2 pi BW T)^2, the batch, FIR and IIR estimators with the coefficients computed for it return, for instant j, the sinusoid at j T times the real number g in [0, 1) that signal_transfer_function reports at its frequency, up to an error bound C that is independent of frequency, amplitude and phase, plus a transient that decays geometrically with the distance of j from both ends of the decisions used. This holds for every frequency other than those of the N poles 2 pi BW cos(j pi/(N+1)).", "quantifier": "all arguments of get_leap_frog, all frequencies but N, all amplitudes in range, phases, window lengths and instants", "why_tests_cant": "A test estimates a few sinusoids from a few filters; one error bound for all of them, all numbers of states and all window positions needs a proof, and the states must be shown to be bounded for ever first.", "anchors": ["src/cbadc/synthesis/leap_frog.py:get_leap_frog", "src/cbadc/simulator/numerical_simulator.py:FullSimulator.__next__", "src/cbadc/digital_estimator/batch_estimator.py:BatchEstimator", "src/cbadc/digital_estimator/fir_estimator.py:FIRFilter", "src/cbadc/digital_estimator/iir_estimator.py:IIRFilter"]}
{"id": "C117", "title": "compute_power_spectral_density: offset, gain, total power, coherent sinusoids, and the mask they need", "statement": "For a nonempty sequence, nperseg >= 1 and fs > 0 the result is n//2+1 frequencies q fs/n up to fs/2 and as many non-negative densities, n = min(nperseg, size). An offset of the sequence has no effect and a gain a multiplies the densities by a^2, so snr_spectrum_computation gives the same ratio for any offset and nonzero gain. The densities times fs/n add up to the mean, over half-overlapping segments, of the Blackman-weighted mean square of the segment less its mean. A constant plus sinusoids on multiples of fs/n, five bins or more apart and three from the ends, shows 1764, 625 and 16 parts in 3046 of each power A^2/2 at distances 0, 1 and 2 and nothing anywhere else. Consequently a noiseless sinusoid has infinite ratio with find_sinusoidal masks of six bins or more, but exactly 3030/16 (22.8 dB) with four or five. A (size, 1) array as returned by iterator_to_numpy_array is analysed along its axis of length one and gives zero at the single frequency zero. nperseg < 1 raises ValueError, fs = 0 ZeroDivisionError.", "quantifier": "all sequences, segment lengths, sampling frequencies, offsets, gains; all finite sets of separated coherent sinusoids; all mask widths", "why_tests_cant": "Tests compare a spectrum with a threshold for one simulation; that no offset, gain, amplitude, phase or number of segments changes the measured ratios, and which bins a sinusoid fills exactly, quantifies over all sequences.", "anchors": ["src/cbadc/utilities.py:compute_power_spectral_density", "src/cbadc/utilities.py:snr_spectrum_computation", "src/cbadc/utilities.py:find_sinusoidal", "src/cbadc/utilities.py:iterator_to_numpy_array"]}
{"id": "C118", "title": "Measured SNR of a sinusoid with bounded errors: a guaranteed lower bound through the whole evaluation chain", "statement": "Let a sequence stay within d > 0 of an offset sinusoid c + A cos(2 pi m k / n + p) on bin m of the spectrum, n = min(nperseg, size), three bins or more from both ends (3 <= m, 2m+4 < n), with A >= 16 sqrt(2) d; the errors are arbitrary otherwise. Then compute_power_spectral_density succeeds, find_sinusoidal with a mask of six bins or more puts its mask around bin m and not around an error bin, and for every noise mask of distinct bins outside it snr_spectrum_computation reports at least (A / (2 sqrt(2) d) - 1)^2, or infinity when the noise bins are exactly zero.", "quantifier": "all sequences, error sequences bounded by d, amplitudes, phases, offsets, bins, segment lengths and numbers of segments, mask widths of at least six, and noise masks", "why_tests_cant": "Tests measure one simulated sequence; the guarantee concerns every error sequence in the ball, including those that concentrate all error power in one bin to displace the peak.", "anchors": ["src/cbadc/utilities.py:compute_power_spectral_density", "src/cbadc/utilities.py:find_sinusoidal", "src/cbadc/utilities.py:snr_spectrum_computation"]}
{"id": "C119", "title": "snr_spectrum_computation_extended: the rms figures are not root mean squares", "statement": "For the spectrum s that compute_power_spectral_density returns with segments of n >= 10 samples, and any masks, a successful snr_spectrum_computation_extended with the same fs reports CG = 0.42 M/(M+1), NG = 0.3046 M/(M+1) with M = n//2, and signal_rms^2 = (3046/1764) (n/M) times the power sum(s[signal_mask]) fs/n, noise_rms^2 = n/(M+1) times sum(s[noise_mask]) fs/n: the bin width is taken as fs/(number of bins) and the noise bandwidth of the window is applied to a sum that already contains it. For a coherent sinusoid of amplitude A among other separated coherent sinusoids as noise the call succeeds, snr is exactly the ratio of the powers, while signal_rms is 1.86 times A/sqrt(2) for even n and noise_rms about 1.41 times the rms of the noise.", "quantifier": "all sequences, segment lengths, sampling frequencies, masks; all finite sets of separated coherent sinusoids", "why_tests_cant": "Tests only check ratios, in which the wrong factors cancel; the factors hold for every sequence and mask.", "anchors": ["src/cbadc/utilities.py:snr_spectrum_computation_extended", "src/cbadc/utilities.py:compute_power_spectral_density"]}
{"id": "C120", "title": "decimate keeps the mean and every sinusoid below the new band edge, removes those above, and spaces samples by size/(size//DSR)", "statement": "decimate(x, DSR) of a one-dimensional real sequence returns size//DSR values; DSR = 0 raises ZeroDivisionError, negative DSR or DSR above the size ValueError, an axis that does not exist IndexError. With DSR = 1 the result is the sequence itself, and for every DSR the mean is that of the sequence. For DSR >= 2 a sum of sinusoids on multiples of 1/size becomes the sum of those with at most size//DSR/2 periods, evaluated at the times j size/(size//DSR); the others vanish and nothing aliases. If DSR divides the size the result is therefore x[0], x[DSR], x[2 DSR], ... for such band-limited sequences, and if it does not, the spacing is not DSR and this fails. In two dimensions each column is decimated by itself along the default axis 0.", "quantifier": "all real sequences, factors and axes; all finite sums of coherent sinusoids; all numbers of channels", "why_tests_cant": "Tests decimate one sequence; that the mean is always kept, that no component above the band edge ever returns and that every component below it is exact quantifies over all sequences, sizes and factors.", "anchors": ["src/cbadc/digital_estimator/decimation_and_demodulation.py:decimate"]}
{"id": "C121", "title": "read_byte_stream_from_url delivers the words of all urls, whatever their status, unless a transfer piece ends within a word", "statement": "byte_stream_2_control_signal(read_byte_stream_from_url(urls, M), M) yields, for M <= 128, the samples encoded in the bodies of all urls in turn (unlike the file reader, which only gets through the first), then raises RuntimeError. The status of a response has no effect, so the page of a 404 is decoded as control signals. If session.get or the transfer raises, everything before is delivered and then that exception, and no later url. A chunked transfer is read piece by piece: pieces of whole words give the same samples as one body, while a piece ending within a word raises struct.error there, although the body is the same.", "quantifier": "all M, all lists of responses and of their transfer pieces, all samples", "why_tests_cant": "A test needs a server and sees the one framing it chose; independence of the status and dependence on the framing of the transfer quantify over all responses.", "anchors": ["src/cbadc/utilities.py:read_byte_stream_from_url", "src/cbadc/utilities.py:byte_stream_2_control_signal"]}
{"id": "C122", "title": "symbolic_differential_equations gives the equations that derivative evaluates, one input or control at a time; their solutions superpose", "statement": "For a system with Gamma, symbolic_differential_equations(input, dim, input_signal) returns one equation for each state x_1, ..., x_N, in order; they hold for functions x and an input exactly if the states move as AnalogSystem.derivative says with that input (or control) at position dim and zero for all others. Negative dim counts from the end, other dim outside the range raises IndexError. Solutions for all inputs and all controls, added up, solve the whole system, and any solution with the same initial state equals that sum, also with signals that jump. Without Gamma the equations of a control are those of no input, for every dim, while derivative raises TypeError. Of the functions only x_N is returned, not all as documented.", "quantifier": "all systems, inputs, controls, dimensions, functions and times", "why_tests_cant": "The test prints the equations; equivalence with the numerical right-hand side and superposition quantify over all systems and all functions of time.", "anchors": ["src/cbadc/analog_system/analog_system.py:AnalogSystem.symbolic_differential_equations", "src/cbadc/analog_system/analog_system.py:AnalogSystem.derivative"]}
{"id": "C123", "title": "BandLimitedSignal and RaisedCosine pass through their samples and tend to a zero-order hold; they are neither periodic nor continuous", "statement": "For T > 0, both signals take the value data[k mod n] at t = k T for every k >= 0; for RaisedCosine provided 8 alpha j is never 1 for an integer j (otherwise the denominator vanishes and there is no finite value). T = 0 raises ZeroDivisionError at construction, empty data at evaluation; BandLimitedSignal otherwise always has a value. With number_of_samples below 4 both equal ZeroOrderHold everywhere. Since the pulses are placed at absolute times, BandLimitedSignal differs from ZeroOrderHold at time t by at most n D / (2 pi (t/T - n)), n = number_of_samples//2 - 1, D a bound of the data. Sample 0 has no influence outside its own intervals. The value is linear in the data. The signal is not periodic although the samples repeat, and it jumps.", "quantifier": "all data, periods, roll-offs, numbers of samples and times", "why_tests_cant": "There are no tests of these signals; passing through every sample and the decay of the pulses with absolute time concern all times and all data.", "anchors": ["src/cbadc/analog_signal/zero_order_hold.py:BandLimitedSignal", "src/cbadc/analog_signal/zero_order_hold.py:RaisedCosine"]}
{"id": "C124", "title": "What an estimator delivers from a stored control signal depends on how the reader ends", "statement": "T samples written to a file, read back with read_byte_stream_from_file and byte_stream_2_control_signal and handed to an estimator without a limit: BatchEstimator delivers the (T - K2)//K1 complete batches with the closed-form values of the stored samples, FIRFilter T//downsample estimates, IIRFilter ceil(T/downsample); the next __next__ raises struct.error (not StopIteration), so a for loop is aborted, and every later one raises StopIteration. The same holds for any source generator that ends in an exception other than RuntimeError. With 0 < stop_after_number_of_iterations <= T a FIRFilter ends normally and never meets the struct.error. From urls, whose reader ends in RuntimeError, BatchEstimator delivers (T + 1 - K2)//K1 batches (one padding sample of zeros) and ends normally. From urls FIRFilter and IIRFilter end normally after T//downsample and ceil(T/downsample) estimates.", "quantifier": "all stored signals, sizes, coefficients, downsampling factors and numbers of calls", "why_tests_cant": "The exception and the number of estimates depend on stream length modulo batch size or downsampling factor, and on the reader; tests iterate a fixed number of times over one short stream and stop before its end.", "anchors": ["src/cbadc/utilities.py:read_byte_stream_from_file", "src/cbadc/utilities.py:byte_stream_2_control_signal", "src/cbadc/digital_estimator/batch_estimator.py:BatchEstimator.__next__", "src/cbadc/digital_estimator/fir_estimator.py:FIRFilter.__next__", "src/cbadc/digital_estimator/iir_estimator.py:IIRFilter.__next__"]}
{"id": "C125", "title": "Summer computes the same in ngspice and Spectre; DifferentialSummer does not fit its Verilog-AMS module", "statement": "Summer(n, offsets, gains): construction succeeds exactly when there are as many offsets as gains (ValueError otherwise), whatever n is. With n gains, not all zero, the Spectre line connects the ports of the Verilog-AMS module in order, drives the same output node as the ngspice line, and its text has the value of the XSPICE summer of the voltages node_i - VCM; with another number of gains the Spectre line does not fit the module. DifferentialSummer rejects exactly lists of different length (BaseException if the number of offsets also differs from n, else ValueError); equal lists of the wrong length are accepted. Its ngspice line pairs positive with negative inputs in order. Its Spectre line (2 n + 1 nodes) fits the module (n + 2 ports) only for n = 1, and then the negative input is connected to the port out.", "quantifier": "all names, numbers of inputs, offset and gain lists, node names and node voltages", "why_tests_cant": "Tests render single templates and compare text; whether the line and the module agree for every number of inputs, and whether the two simulators compute the same, is not visible in the rendered text of an example.", "anchors": ["src/cbadc/circuit/components/summer.py:Summer", "src/cbadc/circuit/components/summer.py:DifferentialSummer", "src/cbadc/circuit/models/summer.py:SummerModel.get_verilog_ams"]}
{"id": "C126", "title": "Reduced rate, parts of a recording, complemented control signals", "statement": "Estimate k of a FIRFilter downsampled by ds is estimate (k+1) ds - 1 of the same filter at full rate; of a downsampled IIRFilter it is estimate k ds, so for ds > 1 the two filters do not estimate the same instants. A FIRFilter started in the middle of a recording, after a multiple of ds samples, gives exactly the estimates of the whole recording once it has read K1 + K2 samples, and not before; an IIRFilter does not. Exchanging 0 and 1 in all control signals negates every estimate of FIRFilter (apart from the offset) and IIRFilter from the first one on, and every complete batch of BatchEstimator.", "quantifier": "all coefficients over any commutative ring, sizes, downsampling factors, recordings and split points", "why_tests_cant": "Tests compare at most a handful of estimates of one recording at one rate; exact equality for every split point, rate and recording needs the closed forms.", "anchors": ["src/cbadc/digital_estimator/fir_estimator.py:FIRFilter.__next__", "src/cbadc/digital_estimator/iir_estimator.py:IIRFilter.__next__", "src/cbadc/digital_estimator/batch_estimator.py:BatchEstimator.__next__"]}
