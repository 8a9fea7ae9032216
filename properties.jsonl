{"id": "C01", "title": "Packed DMD state is a lossless big-endian bit image", "statement": "For a bool dmd_state of shape (Ny, Nx), pack_dmd_state() returns ceil(Ny*Nx/8) bytes; bit (7-b) of byte k is the mirror with row-major number 8k+b, padding bits past the last mirror are 0. Hence two different states of the same shape never pack to the same bytes, and the state can be recovered from the bytes and the shape.", "quantifier": "every Ny, Nx and every assignment of mirrors", "why_tests_cant": "2^(Nx*Ny) states; the repository's test only checks all-on and all-off, which a reversed bit order or a transposed scan also passes.", "anchors": ["pySLM2/slm.py:DMD.pack_dmd_state"]}
{"id": "C02", "title": "pack_dmd_state accepts exactly the bool states", "statement": "pack_dmd_state() raises TypeError when the current dmd_state is not of dtype bool and returns bytes otherwise, and never changes the DMD. After construction, set_dmd_state_on/off and any hologram computed with the binary methods ('simple', 'random', 'ifta') the state is packable; after a hologram computed with 'ideal' it is not.", "quantifier": "every history of DMD calls", "why_tests_cant": "the dtype depends on the whole call history, including patches drawn over older states.", "anchors": ["pySLM2/slm.py:DMD.pack_dmd_state", "pySLM2/slm.py:DMD.set_dmd_grating_state", "pySLM2/slm.py:DMD.calculate_dmd_state", "pySLM2/_lib.py:calculate_dmd_grating"]}
{"id": "C03", "title": "Image-plane power equals output power", "statement": "After propagate_to_image(input) succeeds, get_image_plane_power() = get_output_power(), whatever the device state, input and padding.", "quantifier": "every SLM size, padding, complex input field, device state, wavelength, focal length and pixel size (nonzero)", "why_tests_cant": "a test samples one Gaussian on one device with a tolerance; the identity is Parseval's theorem combined with the exact normalisation constants.", "anchors": ["pySLM2/simulation.py:SLMSimulation.propagate_to_image", "pySLM2/simulation.py:SLMSimulation.get_image_plane_power", "pySLM2/simulation.py:SLMSimulation.get_output_power", "pySLM2/simulation.py:SLMSimulation.image_plane_pixel_area"]}
{"id": "C04", "title": "Padding never changes power", "statement": "Two simulations of the same device state and input that differ only in padding report the same input power, output power and image-plane power.", "quantifier": "every pair of paddings, every field, every state", "why_tests_cant": "paddings are unbounded; tests compare one pair.", "anchors": ["pySLM2/simulation.py:SLMSimulation.propagate_to_image", "pySLM2/simulation.py:SLMSimulation.get_input_power", "pySLM2/simulation.py:SLMSimulation.get_output_power"]}
{"id": "C05", "title": "A DMD is passive", "statement": "With every dmd_state value between 0 and 1, output power never exceeds input power; with all mirrors on they are equal and output_field equals input_field; with all mirrors off output and image-plane power are 0. For a binary state the output power is exactly the input power falling on the mirrors that are on.", "quantifier": "every binary or grey state and every input field", "why_tests_cant": "holds per mirror and per field; sampling cannot cover the states.", "anchors": ["pySLM2/slm.py:DMD._state_tensor", "pySLM2/slm.py:DMD.set_dmd_state_on", "pySLM2/slm.py:DMD.set_dmd_state_off", "pySLM2/simulation.py:SLMSimulation.propagate_to_image"]}
{"id": "C06", "title": "An LCOS SLM is lossless", "statement": "With a real phase pattern in slm_state, output intensity equals input intensity at every pixel, so input, output and image-plane power coincide.", "quantifier": "every real phase pattern and input field", "why_tests_cant": "quantifies over all phase maps.", "anchors": ["pySLM2/slm.py:LCOS_SLM._state_tensor", "pySLM2/simulation.py:SLMSimulation.propagate_to_image"]}
{"id": "C07", "title": "Propagation is linear in the input field", "statement": "For a fixed device state, the image-plane field of a*E1 + b*E2 is a times that of E1 plus b times that of E2; powers scale with |a|^2.", "quantifier": "all complex a, b and all fields", "why_tests_cant": "superposition must hold for every pair of fields.", "anchors": ["pySLM2/simulation.py:SLMSimulation.propagate_to_image"]}
{"id": "C08", "title": "The image-plane field is the discretised Fraunhofer integral on the reported grids", "statement": "At image_plane_padded_grid point (X,Y) the simulated field equals pixel_size^2/(wavelength*focal_length) times the sum over fourier_plane_padded_grid points (x,y) of output_field(x,y)*exp(2*pi*i*(x*X+y*Y)/(wavelength*focal_length)) when the padded sizes are even; for odd sizes the two differ only by a unit-modulus phase, so intensities always agree.", "quantifier": "every size, padding, field and device state", "why_tests_cant": "couples index order, flips, shifts, sign of the transform and scale; a symmetric Gaussian test is blind to most sign and flip errors.", "anchors": ["pySLM2/simulation.py:SLMSimulation.propagate_to_image", "pySLM2/simulation.py:SLMSimulation.image_plane_padded_grid", "pySLM2/simulation.py:SLMSimulation.fourier_plane_padded_grid", "pySLM2/slm.py:SLM.fourier_plane_grid"]}
{"id": "C09", "title": "block_zeroth_order blanks exactly the disc", "statement": "After block_zeroth_order(r), image_plane_field is 0 at the grid points with X^2+Y^2 < r^2 and unchanged elsewhere; input_field and output_field are untouched; repeating it changes nothing; image-plane power does not increase. With the default radius (half the distance to the first order) the point at first_order_origin is never blanked.", "quantifier": "every field, radius and grid", "why_tests_cant": "pointwise statement over all grids and radii.", "anchors": ["pySLM2/simulation.py:DMDSimulation.block_zeroth_order", "pySLM2/slm.py:DMD.first_order_origin"]}
{"id": "C10", "title": "Simulation results always belong to one propagation", "statement": "For any sequence of propagate_to_image, block_zeroth_order, clear and device-state changes in which no call raises: the three fields are all None (never run, or cleared) or all belong to the last propagate_to_image (input and state at that time); block_zeroth_order raises TypeError, changing nothing, exactly when there is no result, and get_input_power, get_output_power and get_image_plane_power fail when there is no field to sum (and return a number that is not negative when there is). Later changes of the device state do not alter stored results.", "quantifier": "every call history", "why_tests_cant": "histories are unbounded.", "anchors": ["pySLM2/simulation.py:SLMSimulation", "pySLM2/simulation.py:DMDSimulation.block_zeroth_order"]}
{"id": "C11", "title": "A failing propagate_to_image leaves the previous result intact", "statement": "If propagate_to_image raises, input_field, output_field and image_plane_field keep their previous values.", "quantifier": "every failure point inside the call", "why_tests_cant": "requires considering each crash point; found to be violated: input_field is replaced before the device state is consulted.", "anchors": ["pySLM2/simulation.py:SLMSimulation.propagate_to_image"]}
{"id": "C12", "title": "Pixel index and physical coordinate conversions are mutually inverse and centred", "statement": "Pixel (i,j) sits at x=(j-Nx/2)*pixel_size, y=(Ny/2-i)*pixel_size: x grows with j, y falls with i, the pixel (Ny/2,Nx/2) is the origin for even sizes, neighbouring pixels are pixel_size apart, and converting a coordinate back gives the pixel index, in both directions.", "quantifier": "every pixel, every real coordinate, every device size with nonzero pixel size", "why_tests_cant": "unbounded sizes, both parities.", "anchors": ["pySLM2/slm.py:SLM._convert_pixel_index_to_dmd_coordinate", "pySLM2/slm.py:SLM._convert_slm_coordinate_to_pixel_index", "pySLM2/slm.py:SLM.fourier_plane_grid"]}
{"id": "C13", "title": "Image-plane grid is the centred Fourier-dual grid", "statement": "Column v of image_plane_grid is at X=(v-floor(Nx/2))*wavelength*focal_length/(Nx*pixel_size) and row u at Y=-(u-floor(Ny/2))*wavelength*focal_length/(Ny*pixel_size): strictly monotone, uniformly spaced, containing the origin exactly once; the product of the spacings is image_plane_pixel_area.", "quantifier": "every size, including odd", "why_tests_cant": "needs the fftfreq/fftshift interplay for every N and both parities.", "anchors": ["pySLM2/slm.py:SLM.image_plane_grid", "pySLM2/simulation.py:SLMSimulation.image_plane_padded_grid", "pySLM2/simulation.py:SLMSimulation.image_plane_pixel_area"]}
{"id": "C14", "title": "Padded grids extend the unpadded grids", "statement": "The central Ny x Nx block of fourier_plane_padded_grid is fourier_plane_grid for every padding; if the padded size is an odd-or-even multiple k of the device size (with matching centre), every k-th sample of image_plane_padded_grid is image_plane_grid.", "quantifier": "every size and padding", "why_tests_cant": "tests check one device and one padding.", "anchors": ["pySLM2/simulation.py:SLMSimulation.fourier_plane_padded_grid", "pySLM2/simulation.py:SLMSimulation.image_plane_padded_grid"]}
{"id": "C15", "title": "ANSI index conversion is exact in double precision", "statement": "ansi_j_to_n_m(j), evaluated with IEEE double rounding in sqrt, subtraction and division, returns the unique (n,m) with n>=|m|, n-m even and j=(n(n+2)+m)/2, for every j with 9+8j<=2^53; it is a bijection onto the valid Zernike index pairs in that range.", "quantifier": "every j up to about 1.1e15", "why_tests_cant": "a wrong rounding at a single perfect square would be a silent off-by-one; the range is too large to test.", "anchors": ["pySLM2/analysis.py:ansi_j_to_n_m"]}
{"id": "C16", "title": "Zernike evaluates the standard polynomial and vanishes outside the aperture", "statement": "For valid (n,m) Zernike(a,radius,n,m)(x,y) = a*N*R_n^|m|(rho)*(cos m*phi or sin|m|*phi), rho=r/radius, with the textbook radial polynomial, N=sqrt(n+1) (m=0) or sqrt(2n+2), N=1 when normalize=False; R(1)=1; with extrapolate=False the value is 0 exactly for rho>1.", "quantifier": "every n, m, a, radius, point", "why_tests_cant": "unbounded orders; tests compare ten modes.", "anchors": ["pySLM2/profile.py:Zernike"]}
{"id": "C17", "title": "Zernike modes are orthonormal on the disc", "statement": "The average over the unit disc of the product of two normalised Zernike modes is 1 if the index pairs agree and 0 otherwise.", "quantifier": "every pair of valid index pairs", "why_tests_cant": "infinite family of integrals.", "anchors": ["pySLM2/profile.py:Zernike", "pySLM2/analysis.py:zernike_decomposition"]}
{"id": "C18", "title": "Zernike rejects every invalid index pair", "statement": "Zernike(a,radius,n,m) raises ValueError unless n>=|m| and n-m is even.", "quantifier": "every pair of integers", "why_tests_cant": "found violated: m<-n is accepted and gives an identically zero mode (and negative n likewise).", "anchors": ["pySLM2/profile.py:Zernike.__init__"]}
{"id": "C19", "title": "remove_trivial_phase removes piston exactly and only acts inside the aperture", "statement": "With the default remove_defocus=False the result has zero mean over the aperture; in both cases it is unchanged at every pixel farther than radius from the centre, depends linearly on the profile, and a profile that is exactly a piston is mapped to zero over the aperture. The removed tilts are odd, so the order of removal of piston and the tilts does not matter.", "quantifier": "every array shape, profile and radius with a nonempty aperture", "why_tests_cant": "depends on discrete symmetry sums for every size.", "anchors": ["pySLM2/analysis.py:remove_trivial_phase"]}
{"id": "C20", "title": "remove_trivial_phase is a projection", "statement": "Applying it twice gives the same result as applying it once; a pure tilt is mapped to zero.", "quantifier": "every profile", "why_tests_cant": "found violated for the discrete grid: the tilt modes are not normalised on the pixel grid, so a residual tilt remains.", "anchors": ["pySLM2/analysis.py:remove_trivial_phase"]}
{"id": "C21", "title": "zernike_decomposition is linear and consistent with its reconstruction", "statement": "It returns num_terms coefficients in ANSI order, each the aperture mean of profile times the mode; coefficients and reconstruction are linear in the profile; the reconstruction is the sum of coefficient times mode and vanishes outside the aperture when extrapolate is False; the first k coefficients do not depend on num_terms.", "quantifier": "every profile, radius with nonempty aperture, num_terms", "why_tests_cant": "universally quantified linear statement.", "anchors": ["pySLM2/analysis.py:zernike_decomposition"]}
{"id": "C22", "title": "Profile arithmetic is pointwise arithmetic", "statement": "(p+q)(x,y)=p(x,y)+q(x,y), and likewise for -, *, /, unary minus, and for real, integer or complex constants on either side where Python provides the operator; p**k is the pointwise power. Mixing a real and a complex profile gives the complex result.", "quantifier": "all profiles, points and constants", "why_tests_cant": "expressions nest without bound.", "anchors": ["pySLM2/profile.py:FunctionProfile"]}
{"id": "C23", "title": "Element type of a profile expression", "statement": "A profile expression evaluates to a real tensor if all its leaves are real, and to a complex tensor if any leaf is complex (LaguerreGaussian, as_complex_profile, complex constant); no mixed-type arithmetic error arises for +,-,*,/ .", "quantifier": "every expression tree", "why_tests_cant": "induction over expression trees.", "anchors": ["pySLM2/profile.py:FunctionProfile._make_attribute_func"]}
{"id": "C24", "title": "Geometric transforms obey their documented formulas and compose", "statement": "shift, rotate, rescale_x, rescale_y satisfy the documented formulas; shifts add, rotations add, rotate(theta) preserves the distance to the origin and turns the picture clockwise by theta, rescaling multiplies, the inverse transforms restore the profile, and all commute with pointwise arithmetic.", "quantifier": "all profiles, points, parameters", "why_tests_cant": "universally quantified.", "anchors": ["pySLM2/profile.py:FunctionProfile.rotate", "pySLM2/profile.py:FunctionProfile.shift", "pySLM2/profile.py:FunctionProfile.rescale_x", "pySLM2/profile.py:FunctionProfile.rescale_y"]}
{"id": "C25", "title": "Parameter setters act on every profile built from the object, and only on those", "statement": "Assigning p.x0, p.a, p.c, ... changes the value of p and of every profile derived from it, exactly as if it had been built with the new value, and leaves every profile not built from p unchanged. Constants captured at construction (shift amounts, numbers added) never change.", "quantifier": "every object graph and every history of assignments", "why_tests_cant": "aliasing over unbounded object graphs.", "anchors": ["pySLM2/profile.py:ConstantProfile.c", "pySLM2/profile.py:HermiteGaussian", "pySLM2/profile.py:SuperGaussian", "pySLM2/window.py:RectangularWindowRectangle"]}
{"id": "C26", "title": "as_complex_profile is a phase factor", "statement": "For a real profile, as_complex_profile() has modulus 1 everywhere and value exp(i*p); as_complex(p+q)=as_complex(p)*as_complex(q); multiplying by as_complex(-p) gives 1.", "quantifier": "all real profiles and points", "why_tests_cant": "universally quantified.", "anchors": ["pySLM2/profile.py:FunctionProfile.as_complex_profile"]}
{"id": "C27", "title": "HermiteGaussian evaluates the documented mode", "statement": "HermiteGaussian(x0,y0,a,w,n,m)(x,y) = a*H_n(sqrt2(x-x0)/w)*H_m(sqrt2(y-y0)/w)*exp(-((x-x0)^2+(y-y0)^2)/w^2) with H_n the Rodrigues Hermite polynomials; it has parity (-1)^n, (-1)^m about its centre.", "quantifier": "every order, parameter and point (w nonzero)", "why_tests_cant": "unbounded orders.", "anchors": ["pySLM2/profile.py:HermiteGaussian"]}
{"id": "C28", "title": "LaguerreGaussian carries the vortex phase and reduces to known modes", "statement": "LaguerreGaussian(l,p) equals a*(sqrt2*r/w)^|l|*L_p^|l|(2r^2/w^2)*exp(-r^2/w^2)*exp(-i*l*phi); its intensity depends only on r; rotating it by theta multiplies it by exp(-i*l*theta); l=0,p=0 is the Gaussian; l=1,p=0 is the documented combination of Hermite modes; it vanishes at the centre iff l is nonzero (p=0).", "quantifier": "every l, p, point, angle", "why_tests_cant": "unbounded orders and continuous rotation.", "anchors": ["pySLM2/profile.py:LaguerreGaussian"]}
{"id": "C29", "title": "SuperGaussian bounds and special cases", "statement": "SuperGaussian has peak a at its centre for p>0, value a/e at distance w for every p, never exceeds |a|, decreases with distance, and equals the Gaussian for p=1.", "quantifier": "every parameter and point (w nonzero, p>0)", "why_tests_cant": "continuous parameter family.", "anchors": ["pySLM2/profile.py:SuperGaussian"]}
{"id": "C30", "title": "Window functions are indicator functions", "statement": "RectangularWindowRectangle is 1 strictly inside its rectangle and 0 elsewhere (edges excluded); RectangularWindowCircular is 1 on the closed disc and 0 elsewhere; products of windows are the indicator of the intersection; w*w=w.", "quantifier": "every parameter and point", "why_tests_cant": "boundary behaviour at every point.", "anchors": ["pySLM2/window.py:RectangularWindowRectangle", "pySLM2/window.py:RectangularWindowCircular"]}
{"id": "C31", "title": "Precision is fixed by first use", "statement": "Once any dtype property of BACKEND has been read, all later reads return the same precision and every assignment raises AssertionError without effect; before that, only float32/float64 are accepted (ValueError otherwise, no effect) and the first read returns the last accepted value (float32 by default). Real, complex and integer dtypes always have matching width. The FFT backend can be switched at any time and never affects this.", "quantifier": "every sequence of reads and writes", "why_tests_cant": "histories are unbounded.", "anchors": ["pySLM2/_backend.py:_BackEnd"]}
{"id": "C32", "title": "Ideal grating stays in range and has the documented first order", "statement": "For 0<=amp<=1 the 'ideal' grating lies between 0 and amp; multiplied by an input with the stated phase it is the sum of a zeroth order amp/2, a +1 order (amp/4)*exp(i*phase_out) on the carrier exp(-i*g) and a conjugate order; with negative_order the roles of the two first orders swap, which is the same as negating both phases.", "quantifier": "every amplitude, phases, position, period, angle", "why_tests_cant": "continuous parameters.", "anchors": ["pySLM2/_lib.py:_calculate_dmd_grating_ideal", "pySLM2/_lib.py:_grating_phase"]}
{"id": "C33", "title": "Simple grating is the 0.5-threshold of the ideal grating", "statement": "A mirror is on iff the ideal value exceeds 1/2; therefore no mirror is on where amp<=1/2, and for amp=1 exactly the half period around the carrier maximum is on.", "quantifier": "every amplitude, phase, position", "why_tests_cant": "boundary statement.", "anchors": ["pySLM2/_lib.py:_calculate_dmd_grating_simple"]}
{"id": "C34", "title": "Random grating: on-probability and limits", "statement": "For 0<=amp<=1 and r>0, the probability (over the uniform threshold) that a mirror is on is the documented duty g in [0,1); it increases with amp; amp=0 is always off for every random draw; amp outside [-1,1] is always off; as r grows the duty tends to the indicator of |phase|<asin(amp), whose first harmonic is amp/pi.", "quantifier": "every amp, phase, r and random draw", "why_tests_cant": "universally quantified over random draws and a limit.", "anchors": ["pySLM2/_lib.py:_calculate_dmd_grating_random"]}
{"id": "C35", "title": "Amplitude scaling is normalised and eta has the right scaling", "statement": "For an input nonzero everywhere and a target whose transform is not identically zero, the amplitude fed to the grating lies in [0,1] and reaches 1 at some mirror; multiplying the target by c>0 leaves the hologram unchanged and divides eta by c; multiplying the input by c>0 leaves the hologram unchanged and multiplies eta by c.", "quantifier": "every input, target and c", "why_tests_cant": "test_eta is skipped as numerically unstable.", "anchors": ["pySLM2/slm.py:DMD._calc_amp_phase", "pySLM2/slm.py:DMD.calculate_dmd_state"]}
{"id": "C36", "title": "The ideal hologram reproduces the target in the first order", "statement": "calculate_dmd_state(input,target,method='ideal') followed by an unpadded simulation of the same input gives image_plane_field = eta/4 * target displaced by the grating order + eta/2 * (zeroth-order term) + eta/4 * (conjugate order); the zeroth and conjugate terms are explicit.", "quantifier": "every input nonzero everywhere, every target, every grating with an integer displacement (and, at the Fourier plane, every grating)", "why_tests_cant": "an end-to-end identity over two Fourier transforms, shifts and normalisations.", "anchors": ["pySLM2/slm.py:DMD.calculate_dmd_state", "pySLM2/_lib.py:_calculate_dmd_grating_ideal", "pySLM2/simulation.py:SLMSimulation.propagate_to_image"]}
{"id": "C37", "title": "Dark input pixels do not spoil the hologram", "statement": "calculate_dmd_state gives a usable hologram (some mirror on, eta>0) for every target that is not identically zero.", "quantifier": "every input profile, including those with zeros", "why_tests_cant": "found violated: one pixel with zero input amplitude and nonzero required amplitude makes eta 0 and switches every mirror off.", "anchors": ["pySLM2/slm.py:DMD._calc_amp_phase", "pySLM2/slm.py:DMD.calculate_dmd_state"]}
{"id": "C38", "title": "calculate_dmd_state is all-or-nothing", "statement": "If calculate_dmd_state or set_dmd_grating_state raises, dmd_state is unchanged. An unknown method raises ValueError; 'ifta' without signal_window raises KeyError.", "quantifier": "every argument combination", "why_tests_cant": "found violated for a zero target: ZeroDivisionError is raised after dmd_state was overwritten.", "anchors": ["pySLM2/slm.py:DMD.calculate_dmd_state", "pySLM2/_lib.py:calculate_dmd_grating"]}
{"id": "C39", "title": "IFTA limits and masking", "statement": "The result is binary for every input; with N=0 and s=1 it is the 'simple' grating; mirrors with zero input amplitude are off once N>=1; with signal_window 0 everywhere or 1 everywhere the result is the thresholded scaled ideal grating for every N; the binarisation threshold at iteration i of N is (i+1)/(2N), increasing to 1/2.", "quantifier": "every N, input, target, s", "why_tests_cant": "iteration count is unbounded.", "anchors": ["pySLM2/_lib.py:_calculate_dmd_grating_ifta", "pySLM2/_lib.py:_ifta_binarize_hologram", "pySLM2/_lib.py:_ifta_correct_profile"]}
{"id": "C40", "title": "Gerchberg-Saxton never increases the error", "statement": "For a nonnegative real input amplitude and nonnegative target amplitude, the image-plane error sum (|field|-target)^2 does not increase with the number of iterations N, whatever the initial random phase.", "quantifier": "every N, initial phase, input and target", "why_tests_cant": "monotonicity over unboundedly many iterations.", "anchors": ["pySLM2/_lib.py:_calculate_lcos_slm_hologram_gs"]}
{"id": "C41", "title": "Gerchberg-Saxton error reduction for inputs with phase", "statement": "For a complex input beam (with a phase, e.g. an aberration, or sign changes) and nonnegative target amplitude, the image-plane error sum (|field|-target)^2 of the Gerchberg-Saxton hologram does not increase with the number of iterations N.", "quantifier": "every complex input", "why_tests_cant": "found violated: the input phase is not subtracted from the hologram, and the error can increase.", "anchors": ["pySLM2/_lib.py:_calculate_lcos_slm_hologram_gs"]}
{"id": "C42", "title": "MRAF contains Gerchberg-Saxton", "statement": "With a signal window equal to 1 everywhere and any mixing_factor>0, 'mraf' returns the same hologram as 'gs' for every N and initial phase; with mixing_factor=0 the target has no influence.", "quantifier": "every N, input, target, initial phase", "why_tests_cant": "iteration count is unbounded.", "anchors": ["pySLM2/_lib.py:_calculate_lcos_slm_hologram_mraf"]}
{"id": "C43", "title": "A computed LCOS hologram is what the simulation displays", "statement": "After calculate_hologram, the simulated image-plane amplitude is the amplitude the algorithm optimised (inverse transform of input*exp(i*slm_state)).", "quantifier": "every input, target, N", "why_tests_cant": "found violated: the device applies exp(-i*slm_state), so for a real input the simulated image is the optimised image reflected through the origin.", "anchors": ["pySLM2/slm.py:LCOS_SLM._state_tensor", "pySLM2/_lib.py:_calculate_lcos_slm_hologram_gs"]}
{"id": "C44", "title": "Hologram phases are in range", "statement": "calculate_hologram stores a real phase in (-pi,pi] at every pixel for N>=1 and in [0,2*pi) for N=0, of the shape of the input; an unknown method raises ValueError and leaves slm_state unchanged.", "quantifier": "every input, N, random draw", "why_tests_cant": "universally quantified.", "anchors": ["pySLM2/slm.py:LCOS_SLM.calculate_hologram", "pySLM2/_lib.py:calculate_lcos_slm_hologram"]}
{"id": "C45", "title": "circular_patch only touches its disc", "statement": "After circular_patch(i,j,...,d) every mirror whose index distance from (i,j) is at least d/2 keeps its value, every other mirror takes the value of the full-frame grating (converted to the element type of the existing state), and the element type and shape of dmd_state do not change.", "quantifier": "every centre, diameter, grating and prior state", "why_tests_cant": "frame condition over all mirrors.", "anchors": ["pySLM2/slm.py:DMD.circular_patch", "pySLM2/slm.py:DMD._circular_mask"]}
{"id": "C46", "title": "Grating patches over grey or binary states", "statement": "Drawing an 'ideal' patch stores the grey values of the ideal grating.", "quantifier": "every prior state", "why_tests_cant": "found violated on a bool state (e.g. a fresh DMD): the grey values are truncated to 'nonzero'.", "anchors": ["pySLM2/slm.py:DMD.circular_patch"]}
{"id": "C47", "title": "Controllers refuse to work before initialisation", "statement": "Every guarded operation (load_single, load_multiple, load_sequence, Nx, Ny, number_image; for Luxbeam also fire_software_trigger) called before initialize() raises and sends nothing to the hardware.", "quantifier": "every history without initialize", "why_tests_cant": "histories are unbounded.", "anchors": ["pySLM2/util/controller.py:_check_initialization", "pySLM2/util/controller.py:DMDControllerBase"]}
{"id": "C48", "title": "ALP load protocol", "statement": "Every successful load halts the device before allocating, allocates as many frames as images given, sends exactly the row-major pixels of the images in order with 0/255 for off/on, sets the timing and only then runs; load_multiple always selects slave mode and the rising edge first.", "quantifier": "every image list and history", "why_tests_cant": "trace property over all histories.", "anchors": ["pySLM2/util/controller.py:ALPController.load_single", "pySLM2/util/controller.py:ALPController.load_multiple"]}
{"id": "C49", "title": "load_single displays the image whatever happened before", "statement": "After load_single on an ALP controller the device is in free-running (master) mode.", "quantifier": "every history", "why_tests_cant": "found violated: after a load_multiple the device stays in slave mode and waits for a trigger.", "anchors": ["pySLM2/util/controller.py:ALPController.load_single", "pySLM2/util/controller.py:ALPController.load_multiple"]}
{"id": "C50", "title": "ALP sequences do not accumulate", "statement": "Loading images repeatedly does not accumulate sequences in the board memory: the number of sequences allocated and not freed stays bounded.", "quantifier": "every history", "why_tests_cant": "found violated: every load allocates one more sequence and frees none (n loads leave n sequences for every n), and close() asks the board to free at most one.", "anchors": ["pySLM2/util/controller.py:ALPController.close", "pySLM2/util/controller.py:ALPController.load_single"]}
{"id": "C51", "title": "A closed controller is unusable", "statement": "After close(), guarded operations raise.", "quantifier": "every history", "why_tests_cant": "found violated: close() does not reset the initialised flag.", "anchors": ["pySLM2/util/controller.py:ALPController.close", "pySLM2/util/controller.py:DMDControllerBase.is_initialized"]}
{"id": "C52", "title": "Luxbeam load protocol", "statement": "During load_single/load_multiple the sequencer is stopped before the register or any image is written and started only afterwards; the frame-count register equals the number of images and image slot i holds image i; nothing else in image memory changes.", "quantifier": "every image list and history", "why_tests_cant": "trace property over all histories.", "anchors": ["pySLM2/util/controller.py:LuxbeamController.load_single", "pySLM2/util/controller.py:LuxbeamController.load_multiple"]}
{"id": "C53", "title": "Luxbeam sequencer shows the images cyclically", "statement": "After loading N>=1 images and any number t of triggers the displayed image is image t mod N; the memory slot N (never loaded) is never displayed.", "quantifier": "every N and every number of triggers", "why_tests_cant": "unbounded schedules.", "anchors": ["pySLM2/util/controller.py:LuxbeamController.initialize"]}
{"id": "C54", "title": "Caching is transparent", "statement": "The grids returned by an SLM or simulation object are the same on every access and equal to a fresh computation, for any interleaving of accesses on any number of objects (including cache eviction).", "quantifier": "every access history and number of objects", "why_tests_cant": "eviction needs more than 128 objects and unbounded histories.", "anchors": ["pySLM2/slm.py:SLM._fourier_plane_grid", "pySLM2/slm.py:SLM._image_plane_grid", "pySLM2/simulation.py:SLMSimulation._image_plane_padded_grid"]}
{"id": "C55", "title": "profile_to_tensor returns a full-size tensor of the requested kind", "statement": "The tensor returned has the requested element kind (real: imaginary part dropped; complex: zero imaginary part added) and, as documented, the dimension of the grid.", "quantifier": "every profile kind", "why_tests_cant": "found violated: a ConstantProfile (or number) gives a 0-dimensional tensor, on which propagate_to_image fails.", "anchors": ["pySLM2/slm.py:SLM.profile_to_tensor", "pySLM2/profile.py:ConstantProfile"]}
{"id": "C56", "title": "Simulation constructors validate their arguments", "statement": "SLMSimulation raises TypeError for a non-integer padding or a non-SLM; DMDSimulation raises TypeError for a non-DMD; otherwise construction succeeds with no results and sizes Nx+2*padding_x, Ny+2*padding_y.", "quantifier": "every argument combination", "why_tests_cant": "decision table over all argument kinds.", "anchors": ["pySLM2/simulation.py:SLMSimulation.__init__", "pySLM2/simulation.py:DMDSimulation.__init__"]}
{"id": "C57", "title": "The DMD state keeps the shape of the device", "statement": "After any history of state setters, grating calls, hologram calculations and circular patches (failing calls included) the stored state has Ny rows and Nx columns, and the device's parameters are those given to the constructor.", "quantifier": "every history of public DMD calls on an array larger than 1 in both directions", "why_tests_cant": "invariant over unbounded call histories with caught exceptions.", "anchors": ["pySLM2/slm.py:DMD.set_dmd_grating_state", "pySLM2/slm.py:DMD.calculate_dmd_state", "pySLM2/slm.py:DMD.circular_patch"]}
{"id": "C58", "title": "LCOS holograms ignore the scale of beam and target", "statement": "Multiplying the input beam and the target by positive constants (independently for 'gs', by the same constant for 'mraf') leaves the computed hologram unchanged, for every initial random phase and number of iterations.", "quantifier": "every input, target, N, positive factors", "why_tests_cant": "unbounded iterations and a continuum of factors.", "anchors": ["pySLM2/slm.py:LCOS_SLM.calculate_hologram", "pySLM2/_lib.py:_calculate_lcos_slm_hologram_gs", "pySLM2/_lib.py:_calculate_lcos_slm_hologram_mraf"]}
{"id": "C59", "title": "remove_trivial_phase leaves zero mean also when defocus is removed", "statement": "With remove_defocus=True the result has zero mean over the aperture.", "quantifier": "every profile and radius with a nonempty aperture", "why_tests_cant": "found violated: the defocus mode does not average to zero over the pixels, so removing it last puts a piston back.", "anchors": ["pySLM2/analysis.py:remove_trivial_phase"]}
{"id": "C60", "title": "Padding refines the image without changing it", "statement": "Two simulations of the same device and input with different paddings give the same complex image-plane field at every point their image-plane grids have in common.", "quantifier": "every device, input, state, pair of paddings, array sizes of either parity", "why_tests_cant": "a continuum of fields and unbounded sizes; a phase error that depends on the padded size only shows when two paddings are compared.", "anchors": ["pySLM2/simulation.py:SLMSimulation.propagate_to_image", "pySLM2/simulation.py:SLMSimulation._image_plane_padded_grid"]}
{"id": "C61", "title": "A tilt moves the image rigidly", "statement": "Multiplying the input field by exp(2*pi*i*(a*x+b*y)/(wavelength*focal_length)) on the SLM grid moves the image by (-a,-b): wherever the grids allow the comparison the field is the one at the displaced point, up to one constant unit factor, which is 1 for even array sizes.", "quantifier": "every input, state, padding (also different ones), real a and b", "why_tests_cant": "continuum of tilts; checks orientation and scale of the image grid together.", "anchors": ["pySLM2/simulation.py:SLMSimulation.propagate_to_image", "pySLM2/slm.py:SLM._fourier_plane_grid", "pySLM2/simulation.py:SLMSimulation._image_plane_padded_grid"]}
{"id": "C62", "title": "A real field at the SLM gives a point-symmetric image", "statement": "If the field leaving the SLM is real, the image-plane field at (-X,-Y) is the complex conjugate of that at (X,Y); so with a real input and a binary DMD pattern the positive and negative diffraction orders have equal intensity.", "quantifier": "every real input, state, padding, array size", "why_tests_cant": "unbounded sizes; the symmetry fails if the grid origin or the transform is off by one pixel for one parity.", "anchors": ["pySLM2/simulation.py:SLMSimulation.propagate_to_image", "pySLM2/simulation.py:SLMSimulation._image_plane_padded_grid"]}
{"id": "C63", "title": "On-axis value and peak bound of the image", "statement": "The optical axis is a point of every image-plane grid, the field there is pixel_size^2/(wavelength*focal_length) times the sum of the field leaving the SLM, and nowhere does the modulus exceed that factor times the sum of the moduli.", "quantifier": "every input, state, padding, array size", "why_tests_cant": "inequality over all fields and unbounded sizes.", "anchors": ["pySLM2/simulation.py:SLMSimulation.propagate_to_image", "pySLM2/simulation.py:SLMSimulation._image_plane_padded_grid"]}
{"id": "C64", "title": "Zernike profiles are bounded by amplitude times normalisation", "statement": "Inside the aperture (and everywhere when extrapolate=False) the modulus of a Zernike profile never exceeds |a| times its normalisation factor, and that value is reached on the rim.", "quantifier": "every valid (n, m), amplitude, radius > 0, flags, point", "why_tests_cant": "all orders n; the polynomials have alternating coefficients growing exponentially, so the bound is not visible from the code.", "anchors": ["pySLM2/profile.py:Zernike.__init__", "pySLM2/profile.py:Zernike._func"]}
{"id": "C65", "title": "Rotation and parity of Zernike profiles", "statement": "rotate(theta) turns any profile clockwise by theta. A rotated mode (n,m) is the combination cos(m theta) Z(n,m) - sin(m theta) Z(n,-m), its partner the complementary one, m=0 modes do not change; and Z(-x,-y) = (-1)^n Z(x,y).", "quantifier": "every valid (n, m), angle, point; every profile for the direction of rotate", "why_tests_cant": "continuum of angles, all orders; the code carries a TODO asking for the direction.", "anchors": ["pySLM2/profile.py:FunctionProfile.rotate", "pySLM2/profile.py:Zernike._func"]}
{"id": "C66", "title": "Hermite-Gauss modes are orthogonal over the plane and have the power given by their order", "statement": "Let two HermiteGaussian profiles share centre and width w (nonzero) and have orders (n, m), (n', m') and amplitudes a, b. The integral over the whole plane of the product of the two evaluated fields is 0 unless n = n' and m = m', in which case it is a b (pi w^2 / 2) 2^(n+m) n! m!.", "quantifier": "All heaps, centres, amplitudes, nonzero widths and orders n, m, n', m'; any fields the constructed profiles evaluate to.", "why_tests_cant": "An improper integral over the plane for every pair of orders; a numerical test fixes a grid, a cut-off radius and a few orders.", "anchors": ["pySLM2/profile.py:HermiteGaussian._func"]}
{"id": "C67", "title": "Laguerre-Gauss modes are orthogonal over the plane and have the power given by their indices", "statement": "Let two LaguerreGaussian profiles share centre and width w (nonzero) and have indices (l, p), (l', p') and amplitudes a, b. The integral over the whole plane of E1 times the conjugate of E2 has imaginary part 0, and real part 0 unless l = l' and p = p', in which case it is a b (pi w^2 / 2) (p+|l|)! / p!.", "quantifier": "All heaps, centres, amplitudes, nonzero widths, integers l, l' and p, p' >= 0; any fields the constructed profiles evaluate to.", "why_tests_cant": "An improper integral over the plane for every pair of indices, including opposite vortex charges; tests can only sample a few on a finite grid.", "anchors": ["pySLM2/profile.py:LaguerreGaussian._func"]}
{"id": "C68", "title": "An empty image list is rejected", "statement": "load_multiple([]) raises and leaves the display stopped, on both controllers.", "quantifier": "every initialised controller whose hardware does not fail", "why_tests_cant": "found violated: the Luxbeam controller starts its sequencer with a zero loop count; the program then loops without ever setting the mirrors or waiting for a trigger (an unbounded execution no finite test exhibits).", "anchors": ["pySLM2/util/controller.py:LuxbeamController.load_multiple", "pySLM2/util/controller.py:LuxbeamController.initialize", "pySLM2/util/controller.py:ALPController.load_multiple"]}
{"id": "C69", "title": "A DMD's own image is matched perfectly", "statement": "Take the field an unpadded simulation shows with every mirror on, multiply it by a nonzero complex constant c and use it as the target for the same input: calculate_dmd_state returns 1/|c| for 'ideal', 'simple' and 'random', and the 'ideal' levels are the full-contrast grating (cos(carrier -/+ arg c)+1)/2 wherever the input is not dark.", "quantifier": "every DMD (period nonzero, positive scaling factor), input not everywhere dark, constant c", "why_tests_cant": "ties the hologram code to the simulation code exactly; a factor or orientation error in either alone shows only in the comparison, for all fields and sizes.", "anchors": ["pySLM2/slm.py:DMD.calculate_dmd_state", "pySLM2/slm.py:DMD._calc_amp_phase", "pySLM2/simulation.py:SLMSimulation.propagate_to_image"]}
{"id": "C70", "title": "The efficiency returned for a hologram respects energy conservation", "statement": "eta^2 times the power of the target (on the image-plane pixels) never exceeds the power of the input (on the SLM pixels), with equality exactly when the modulus of the target's spectrum is proportional to that of the input.", "quantifier": "every DMD, input, target with the input lit wherever the spectrum of the target is not zero; methods ideal, simple, random", "why_tests_cant": "inequality with its equality case over all fields.", "anchors": ["pySLM2/slm.py:DMD.calculate_dmd_state", "pySLM2/slm.py:DMD._calc_amp_phase"]}
{"id": "C71", "title": "Equivalent grating settings give the same mirror patterns", "statement": "Turning the grating by pi and flipping negative_order, turning it by pi and negating the period, or turning it by 2 pi, changes no result of set_dmd_grating_state, circular_patch or calculate_dmd_state, whatever the method, arguments and outcome; first_order_origin on the other hand is negated by the turn by pi, although the pattern is the same.", "quantifier": "every device, heap, argument, method, keyword and random draw", "why_tests_cant": "all calls and methods at once, including failing ones.", "anchors": ["pySLM2/slm.py:DMD.set_dmd_grating_state", "pySLM2/slm.py:DMD.circular_patch", "pySLM2/slm.py:DMD.calculate_dmd_state", "pySLM2/slm.py:DMD.first_order_origin", "pySLM2/_lib.py:calculate_dmd_grating"]}
{"id": "C72", "title": "Global phases of input and target only shift the fringes", "statement": "Multiplying the input by exp(ia) and the target by exp(ib) does not change the returned efficiency; the 'ideal' levels keep their amplitudes and have their fringes shifted by b-a; if exp(ia)=exp(ib) the states are identical for 'ideal', 'simple' and 'random'.", "quantifier": "every DMD, input, target, window as in C35; all real a, b; every draw", "why_tests_cant": "continuum of phases; branch cuts of the angle function are crossed at different pixels for every a, b.", "anchors": ["pySLM2/slm.py:DMD.calculate_dmd_state", "pySLM2/slm.py:DMD._calc_amp_phase", "pySLM2/_lib.py:calculate_dmd_grating"]}
{"id": "C73", "title": "Complementary mirror patterns have complementary images", "statement": "The images of a mirror pattern and of its negation add up to the image with all mirrors on; where the latter vanishes the two have equal intensity (Babinet).", "quantifier": "every binary pattern, input, padding", "why_tests_cant": "exponentially many patterns and a continuum of inputs.", "anchors": ["pySLM2/simulation.py:SLMSimulation.propagate_to_image", "pySLM2/slm.py:DMD._state_tensor", "pySLM2/slm.py:DMD.set_dmd_state_on"]}
{"id": "C74", "title": "LCOS phases matter only modulo 2 pi and up to a common offset", "statement": "Adding one constant to every phase of an LCOS panel and multiples of 2 pi to individual pixels leaves the simulated image intensity unchanged, and the complex field too when the constant is 0. A new panel gives the field of a panel of phase zero.", "quantifier": "every phase pattern, offset, integers per pixel, input, padding", "why_tests_cant": "continuum of phases and one integer per pixel.", "anchors": ["pySLM2/slm.py:LCOS_SLM._state_tensor", "pySLM2/slm.py:LCOS_SLM.reset_slm_state", "pySLM2/simulation.py:SLMSimulation.propagate_to_image"]}
{"id": "C75", "title": "Moving the field across the SLM does not change the image intensity", "statement": "If the field leaving the device is another one displaced by whole pixels, nothing crossing the border, the image field is multiplied by the linear phase exp(2 pi i (dx x - dy y) pixel_size/(wavelength focal_length)) of the image-plane position, hence its intensity is the same.", "quantifier": "every pair of devices, inputs and states related by a displacement; every padding", "why_tests_cant": "unbounded sizes and all displacements of both signs.", "anchors": ["pySLM2/simulation.py:SLMSimulation.propagate_to_image", "pySLM2/simulation.py:SLMSimulation._image_plane_padded_grid"]}
{"id": "C76", "title": "Random dithering is unbiased, with a flat noise floor", "statement": "For thresholds drawn independently and uniformly on [0,1], the mean simulated field of a 'random' state is the field of the grey state of the mirrors' duty cycles, and the mean intensity exceeds that of the grey state by the same amount at every image point: (pixel_size^2/(wavelength focal_length))^2 times the sum of g(1-g)|input|^2. Holds for gratings and for holograms.", "quantifier": "every DMD, arguments, r > 0, input, padding, image point", "why_tests_cant": "an integral over one variable per mirror; a test can only average finitely many draws.", "anchors": ["pySLM2/slm.py:DMD.set_dmd_grating_state", "pySLM2/slm.py:DMD.calculate_dmd_state", "pySLM2/_lib.py:_calculate_dmd_grating_random", "pySLM2/simulation.py:SLMSimulation.propagate_to_image"]}
{"id": "C77", "title": "A uniform grating sends light only into its diffraction orders", "statement": "With uniform illumination, no padding and a grating whose first order falls on an image sample, every lit image sample lies at n times first_order_origin() plus whole multiples of wavelength*focal_length/pixel_size (replicas of the sampled spectrum); n is -1, 0 or 1 for 'ideal'. If the first order is inside the image, block_zeroth_order() with its default radius clears the axis and no other sample.", "quantifier": "every DMD, angle, period, constant amplitude and phases, input level, both methods 'ideal' and 'simple'", "why_tests_cant": "unbounded sizes; the absence of light everywhere else is a universal statement over samples and settings.", "anchors": ["pySLM2/slm.py:DMD.set_dmd_grating_state", "pySLM2/slm.py:DMD.first_order_origin", "pySLM2/_lib.py:calculate_dmd_grating", "pySLM2/simulation.py:SLMSimulation.propagate_to_image", "pySLM2/simulation.py:DMDSimulation.block_zeroth_order"]}
{"id": "C78", "title": "Profile attributes read back what was given or assigned", "statement": "A freshly built ConstantProfile, HermiteGaussian, SuperGaussian, window or Zernike reports its constructor arguments through its attributes (normalization is sqrt(n+1), sqrt(2n+2) or None); after an accepted assignment the attribute reads the assigned value (as complex for a complex constant) and all others are unchanged; the only refused assignments to variables are complex numbers to real ones, which change nothing; attributes that are not variables refuse assignment.", "quantifier": "every object, attribute, value, state of the other objects", "why_tests_cant": "all attributes times all values times all heaps; aliasing between variables would escape example tests.", "anchors": ["pySLM2/profile.py:ConstantProfile", "pySLM2/profile.py:HermiteGaussian", "pySLM2/profile.py:SuperGaussian", "pySLM2/profile.py:Zernike", "pySLM2/window.py:RectangularWindowRectangle", "pySLM2/window.py:RectangularWindowCircular"]}
{"id": "C79", "title": "The orders of a Zernike profile can be read", "statement": "Zernike.n and Zernike.m return the orders the object was built with.", "quantifier": "every Zernike object", "why_tests_cant": "needs every accepted pair of orders.", "anchors": ["pySLM2/profile.py:Zernike.n", "pySLM2/profile.py:Zernike.m"]}
{"id": "C80", "title": "Plain thresholding distorts the amplitude of the first order", "statement": "A mirror of a 'simple' grating with amplitude A >= 0 (IFTA scales it by s before thresholding, so it may exceed 1) depends on the carrier phase alone; the first Fourier coefficient of that function over one fringe is 0 for A <= 1/2 and 2 sqrt(2A-1)/A above (times a constant), hence not proportional to A (unlike 'random', C34).", "quantifier": "every amplitude", "why_tests_cant": "an integral over a continuous fringe for a continuum of amplitudes.", "anchors": ["pySLM2/_lib.py:_calculate_dmd_grating_simple"]}
{"id": "C81", "title": "What one iteration of GS and of MRAF does", "statement": "The stored phases are those of N iterations (default 200) from 2 pi times the uniform random numbers; each iteration takes the image of the input field times the current phase factors, replaces it by target times its phase factors (GS) or by m target phase-factors window + (1-m) image (1-window) (MRAF, m default 0.4), all centred on the optical axis, and takes the angle in (-pi, pi] of the spectrum (0 where it vanishes).", "quantifier": "every panel size, input field, target, complex window, mixing factor, iteration count and random start", "why_tests_cant": "an exact description of an iterated nonlinear map on arrays of any size.", "anchors": ["pySLM2/slm.py:LCOS_SLM.calculate_hologram", "pySLM2/_lib.py:_calculate_lcos_slm_hologram_gs", "pySLM2/_lib.py:_calculate_lcos_slm_hologram_mraf"]}
{"id": "C82", "title": "A perfect hologram is kept by the iterations", "statement": "If the starting phases already display the target exactly (for MRAF: wherever the window is not zero), the iterations keep the phase factors of every illuminated pixel (up to a common factor when the flat input phase is not 0): GS for any number of iterations, MRAF with mixing factor 1/2, and MRAF with its default mixing factor.", "quantifier": "every panel, non-negative input amplitude with flat phase, target, window, iteration count", "why_tests_cant": "a fixed-point statement over all fields and iteration counts.", "anchors": ["pySLM2/slm.py:LCOS_SLM.calculate_hologram", "pySLM2/_lib.py:_calculate_lcos_slm_hologram_gs", "pySLM2/_lib.py:_calculate_lcos_slm_hologram_mraf"]}
{"id": "C83", "title": "A DMD rejects arrays of the wrong shape and repeats single rows", "statement": "If an input, target, window, amplitude or phase array (or, for 'ifta', the signal window or input profile) is neither of the device's size nor 1 in the differing dimensions, the call raises and the device object is unchanged. Arrays with one row or column act like that row or column repeated; a target with one row acts like a line through the optical axis. 'ifta' in set_dmd_grating_state and circular_patch raises, with nothing changed, unless the signal window is a complex array and the input profile a complex array or a number.", "quantifier": "every device with more than one row and column, every array shape and content, every method and keyword", "why_tests_cant": "all shapes, contents and methods at once; tests only pass arrays of the right size.", "anchors": ["pySLM2/slm.py:DMD.calculate_dmd_state", "pySLM2/slm.py:DMD.set_dmd_grating_state", "pySLM2/slm.py:DMD.circular_patch", "pySLM2/_lib.py:_calculate_dmd_grating_ifta"]}
{"id": "C84", "title": "An LCOS SLM rejects arrays of the wrong shape", "statement": "calculate_hologram raises and leaves slm_state unchanged if the input, the target or the MRAF window does not fit the panel.", "quantifier": "every panel, array shape and method", "why_tests_cant": "all shapes and contents at once; tests only pass arrays of the right size.", "anchors": ["pySLM2/slm.py:LCOS_SLM.calculate_hologram", "pySLM2/_lib.py:_calculate_lcos_slm_hologram_gs", "pySLM2/_lib.py:_calculate_lcos_slm_hologram_mraf"]}
{"id": "C85", "title": "A grating period of zero is refused", "statement": "A DMD whose grating period is zero raises when a grating or hologram is computed. (What holds instead: outcome and efficiency do not depend on period, angle or sign of the order, the pattern is blank and blocking the zeroth order blanks the image.)", "quantifier": "every device, argument, method and keyword", "why_tests_cant": "a claim about every call on a degenerate device.", "anchors": ["pySLM2/slm.py:DMD.set_dmd_grating_state", "pySLM2/slm.py:DMD.calculate_dmd_state", "pySLM2/slm.py:DMD.first_order_origin", "pySLM2/simulation.py:DMDSimulation.block_zeroth_order"]}
{"id": "C86", "title": "The analysis functions become exact as the aperture gets more pixels", "statement": "For an aperture of radius R pixels (R >= 1) that fits in the array: the aperture holds pi R^2 pixels up to 28 R; the average over it of a sampled polynomial differs from the true mean over the disc by at most K/R, with K depending on the polynomial only; sampled Zernike modes are orthonormal up to K/R; zernike_decomposition of a sum of modes returns its coefficients up to K/R times the sum of their magnitudes and its second result reproduces the map inside the aperture to the same accuracy; for a sampled polynomial every coefficient is the continuous Zernike coefficient up to K/R; remove_trivial_phase leaves of a tilt only a fraction K/R, applying it a second time changes nothing by more than K/R times the largest phase, and with remove_defocus=True the mean that stays is at most K/R times the largest phase.", "quantifier": "for all array sizes, all radii >= 1 with 2R <= both sizes, all polynomials, all modes, all coefficient vectors (number T of modes with 8T+1 <= 2^53), all phase maps", "why_tests_cant": "A test sees one aperture and a tolerance; here the error is bounded for every size at once by a constant over R, which turns the failures of C20, C21 and C59 at finite size into a rate.", "anchors": ["pySLM2/analysis.py:zernike_decomposition", "pySLM2/analysis.py:remove_trivial_phase", "pySLM2/profile.py:Zernike._func"]}
{"id": "C87", "title": "Errors of beam, pattern and target are not amplified", "statement": "Two propagations with the same optics: the total power of the difference of the two image fields equals the total power of the difference of the two fields leaving the device, and at no image pixel is the difference larger than the summed field differences times pixel_size^2/(wavelength*focal_length). If two binary patterns are lit by the same beam, the power of the image error is the power of the beam on the mirrors that differ. Changing target amplitude and phases changes the ideal grating at a mirror by at most |dA| + |A| (|d phase_in| + |d phase_out|)/2, and a mirror of the 'simple' pattern does not change if its grey value is farther from 1/2 than that.", "quantifier": "every device size and optics, every pair of beams, states, targets and paddings for which the calls succeed", "why_tests_cant": "a stability bound over all pairs of inputs; a test compares two fixed ones.", "anchors": ["pySLM2/simulation.py:SLMSimulation.propagate_to_image", "pySLM2/slm.py:DMD.set_dmd_grating_state", "pySLM2/_lib.py:_calculate_dmd_grating_ideal", "pySLM2/_lib.py:_calculate_dmd_grating_simple"]}
{"id": "C88", "title": "IFTA uses only the point-symmetric part of its signal window", "statement": "If the input beam has a flat phase, two signal windows with the same point-symmetric part (w(x) + conj w(-x))/2 give the same mirror pattern and the same returned efficiency; so a window over one diffraction order acts like a window of half the strength over both orders. If the symmetric part is a constant between 0 and 1 the iterations change nothing: the result is the thresholded scaled ideal grating on every lit mirror. If every mirror is lit, the pattern before each binarisation displays the shown image plus the symmetric part times the remaining error, so exactly the ideal image wherever the window and its mirror image are both 1.", "quantifier": "every device, beam of flat phase, target, pair of windows, iteration count and scale", "why_tests_cant": "a metamorphic claim over all pairs of windows and all iteration counts.", "anchors": ["pySLM2/slm.py:DMD.calculate_dmd_state", "pySLM2/slm.py:DMD.set_dmd_grating_state", "pySLM2/_lib.py:_calculate_dmd_grating_ifta", "pySLM2/_lib.py:_ifta_correct_profile"]}
{"id": "C89", "title": "Raising the scale s of IFTA raises the diffraction efficiency", "statement": "The documentation says that increasing s increases the overall diffraction efficiency. Read as the intensity of the simulated image at the first diffraction order this is claimed for every grating and every larger s. It is false: a three-mirror grating of period three loses its first order completely when s goes from 1 to 3. What holds instead: a larger s never switches a lit mirror off when the window has a constant symmetric part; the first harmonic of a thresholded fringe of scaled amplitude a = A s grows for a up to 1 and falls strictly from there on; the returned efficiency does not depend on s at all.", "quantifier": "every device, target, scale and pair of scales", "why_tests_cant": "a monotonicity claim over a continuum of scales; the loss appears only beyond the peak.", "anchors": ["pySLM2/slm.py:DMD.set_dmd_grating_state", "pySLM2/slm.py:DMD.calculate_dmd_state", "pySLM2/_lib.py:_calculate_dmd_grating_ifta"]}
{"id": "C90", "title": "Thresholding gives the mirror pattern with the least total image error", "statement": "Compare simulated images with the image of the 'ideal' grey hologram. Among all mirror patterns of the device the one set by method 'simple' has the least power of the difference over the whole image plane, for every beam and padding, and strictly less than any pattern that differs from it at a lit mirror whose grey level is not 1/2. The same holds for targets given to calculate_dmd_state. IFTA with s = 1, a flat beam and a window of constant symmetric part reaches the same minimum. So every draw of 'random' and every windowed IFTA pattern has at least this total error; they can be better only inside a part of the image.", "quantifier": "every device, target, beam, padding and competing mirror pattern", "why_tests_cant": "an optimality claim over all 2^(Nx Ny) mirror patterns.", "anchors": ["pySLM2/slm.py:DMD.set_dmd_grating_state", "pySLM2/slm.py:DMD.calculate_dmd_state", "pySLM2/_lib.py:_calculate_dmd_grating_simple", "pySLM2/simulation.py:SLMSimulation.propagate_to_image"]}
{"id": "C91", "title": "A Gaussian beam gives a Gaussian image", "statement": "HermiteGaussian(x0, y0, a, w) propagated through a device of uniform transmission c (DMD with all mirrors on: 1) gives at every pixel (X, Y) of the image plane, for every padding, c times the Gaussian of waist lambda f/(pi w) and peak a w/waist, times the phase ramp exp(2 pi i (x0 X + y0 Y)/(lambda f)) of the displaced beam (and a known half-pixel phase for odd array sizes), up to an explicit error made of the pixel pitch and the Gaussian tails outside the array. For a waist of 1 mm on a DLP9500 with all mirrors on the simulated peak is within 3 % of a w/waist.", "quantifier": "every device size, pitch and optics, every waist, amplitude and beam centre on the array, every padding and image pixel", "why_tests_cant": "the unit tests compare one beam on one device with a tolerance; here the error is bounded for all of them by a formula.", "anchors": ["pySLM2/simulation.py:SLMSimulation.propagate_to_image", "pySLM2/profile.py:HermiteGaussian._func", "pySLM2/slm.py:SLM.profile_to_tensor"]}
{"id": "C92", "title": "The power of a Gaussian beam is pi a^2 w^2 / 2", "statement": "get_input_power after propagating HermiteGaussian(x0, y0, a, w) is pi a^2 w^2/2 up to an explicit error of second order in the pixel pitch plus the Gaussian tails outside the array; get_output_power and get_image_plane_power are |c|^2 times it on a device of uniform transmission c. The assertion of the unit test test_get_input_power (DLP9500, w = 3 mm, relative tolerance 1e-3) holds for every amplitude, wavelength, focal length, grating setting and padding.", "quantifier": "every device size, pitch and optics, every waist, amplitude and beam centre strictly inside the array, every padding", "why_tests_cant": "the repository tests it for one amplitude, one waist and one padding.", "anchors": ["pySLM2/simulation.py:SLMSimulation.get_input_power", "pySLM2/simulation.py:SLMSimulation.get_output_power", "pySLM2/simulation.py:SLMSimulation.get_image_plane_power", "pySLM2/profile.py:HermiteGaussian._func"]}
{"id": "C93", "title": "Moving the target is the same as moving the first-order origin", "statement": "The hologram computed by calculate_dmd_state (ideal, simple, random, ifta) for a target moved by whole image pixels, wrapping round the image, equals the hologram for the unmoved target on a DMD that differs only in grating period and angle such that first_order_origin is moved by the same number of image-plane pixels (opposite for negative_order); the returned efficiencies are equal too. For odd sizes the moved target carries a constant half-pixel phase, which is 1 for even sizes.", "quantifier": "every device size, beam, target, Fourier window, random numbers, IFTA window/N/s, and displacement by integers a, b of either sign", "why_tests_cant": "relates two devices and two targets of unbounded size for all displacements and all random draws.", "anchors": ["pySLM2/slm.py:DMD.calculate_dmd_state", "pySLM2/slm.py:DMD.first_order_origin", "pySLM2/_lib.py:_calculate_dmd_grating_ideal"]}
{"id": "C94", "title": "The image is linear in the mirror positions", "statement": "If the grey or on/off states of DMDs with the same optics satisfy state3 = x*state1 + y*state2, then propagate_to_image gives image3 = x*image1 + y*image2; assigning dmd.dmd_state = c*dmd.dmd_state leaves the input power unchanged and multiplies the output and the image-plane power by c^2 (the unit test has c = 0.5).", "quantifier": "every device, beam, padding, pair of states with finite entries, and real x, y, c of either sign", "why_tests_cant": "superposition must hold for every pair of states and every coefficient.", "anchors": ["pySLM2/simulation.py:SLMSimulation.propagate_to_image", "pySLM2/simulation.py:SLMSimulation.get_image_plane_power"]}
{"id": "C95", "title": "Rounding never pushes amplitudes or grey levels out of range", "statement": "In floating-point arithmetic (double or single, gradual underflow or flush to zero) the normalised amplitude computed by calculate_dmd_state lies in [0, 1], reaches 1 exactly, is 0 where the target spectrum is 0, and so never makes asin return NaN. The grey level of method 'ideal' lies in [0, amplitude]. Method 'simple' turns a mirror on only if the amplitude exceeds 1/2 and the fringe is positive, and a larger amplitude never turns a mirror off. Method 'random' never turns on a mirror whose amplitude is 0.", "quantifier": "all panel sizes, all spectra and beams whose amplitude is positive wherever light is wanted and whose ratio does not underflow everywhere, all phases, coordinates, grating parameters, thresholds and every rounding that is monotone, odd and exact on small dyadic numbers", "why_tests_cant": "A test sees a handful of arrays on one machine; a ratio that rounds to 1 + 2^-52 in one pixel of one array would give NaN there only.", "anchors": ["pySLM2/slm.py:DMD._calc_amp_phase", "pySLM2/_lib.py:_calculate_dmd_grating_ideal", "pySLM2/_lib.py:_calculate_dmd_grating_simple", "pySLM2/_lib.py:_calculate_dmd_grating_random"]}
{"id": "C96", "title": "Mirror coordinates survive rounding", "statement": "In floating-point arithmetic fourier_plane_grid is still the product of one coordinate per column and one per row; these are strictly increasing to the right and upwards, exactly antisymmetric about the optical axis (so exactly 0 on it), and within two roundings of (j - Nx/2)*pixel_size and (Ny/2 - i)*pixel_size. On the panel, the padded grid of a simulation agrees with it to the last bit. Converting a coordinate back gives the index within 3u(N+3), u the unit roundoff, so the nearest integer is the index.", "quantifier": "all panels up to 2^20 pixels per side, all positive pixel sizes far from underflow, all paddings up to 2^20, all mirrors, double and single precision", "why_tests_cant": "The error depends on panel size, pixel size, pixel and precision; tests compare a few grids with a tolerance.", "anchors": ["pySLM2/slm.py:SLM._convert_pixel_index_to_dmd_coordinate", "pySLM2/slm.py:SLM._convert_slm_coordinate_to_pixel_index", "pySLM2/slm.py:SLM.fourier_plane_grid", "pySLM2/simulation.py:SLMSimulation.fourier_plane_padded_grid"]}
{"id": "C97", "title": "Index to coordinate and back is exact in double precision", "statement": "Converting a pixel index to a coordinate and back with the default double precision returns the same index.", "quantifier": "all mirrors of the supported devices", "why_tests_cant": "Whether it holds depends on the device's pixel size and on single columns.", "anchors": ["pySLM2/slm.py:SLM._convert_pixel_index_to_dmd_coordinate", "pySLM2/slm.py:SLM._convert_slm_coordinate_to_pixel_index", "pySLM2/slm.py:DLP9500"]}
{"id": "C98", "title": "circular_patch selects exactly the mirrors inside the circle, also after rounding", "statement": "In floating-point arithmetic the mask of circular_patch contains a mirror if and only if its exact distance from the centre is less than d/2, provided centre and diameter are multiples of a power of two coarse enough for the squares to fit the mantissa: every integer centre and integer diameter up to 4096 on every supported panel, even in single precision.", "quantifier": "all such centres, diameters and pixels, double and single precision", "why_tests_cant": "The mirrors at stake are those exactly on the rim, where an error of one unit in the last place decides; tests look at single patches.", "anchors": ["pySLM2/slm.py:DMD._circular_mask", "pySLM2/slm.py:DMD.circular_patch"]}
{"id": "C99", "title": "A mirror panel never gains power, to the last bit", "statement": "In floating-point arithmetic, for any beam, the simulated output power is at most the input power, whatever the order in which numpy adds the pixels; it equals the input power to the last bit when all mirrors are on, is exactly 0 when all are off, and never decreases when more mirrors are turned on. Behind a mirror that is on the field is bit for bit the field before it. Grey levels in [0, 1] never gain power either.", "quantifier": "all representable fields, all on/off states and grey states, all orders of summation, all pixel areas, every rounding that is monotone, odd, idempotent and exact on small dyadic numbers", "why_tests_cant": "Tests compare powers with a tolerance for a few states; the claim is an inequality without tolerance for all beams and summation orders.", "anchors": ["pySLM2/simulation.py:SLMSimulation.propagate_to_image", "pySLM2/simulation.py:SLMSimulation.get_input_power", "pySLM2/simulation.py:SLMSimulation.get_output_power", "pySLM2/slm.py:DMD._state_tensor"]}
{"id": "C100", "title": "Gerchberg-Saxton and MRAF move with their target", "statement": "If the target (and the MRAF window) is moved by whole image pixels, wrapping round, and the random start phases are replaced by the start phases minus the corresponding linear tilt (plus any constant), then the stored hologram is the previous hologram minus the same tilt plus the same constant, modulo 2 pi on every lit pixel, and the displayed image is the previous one moved by the same pixels. Uniform random phases stay uniform under this replacement, so the quality of a hologram does not depend on where the target is.", "quantifier": "every LCOS device size, beam (with any phase), target, window, mixing factor, displacement, constant, start phases and number of iterations, provided no iterate has an exact zero of the image where light is wanted or of the back-transformed field on a lit pixel", "why_tests_cant": "relates two whole runs for all sizes, targets and displacements; a shift by one pixel in one of the four fftshift calls would go unnoticed in a symmetric test target.", "anchors": ["pySLM2/slm.py:LCOS_SLM.calculate_hologram", "pySLM2/_lib.py:_calculate_lcos_slm_hologram_gs", "pySLM2/_lib.py:_calculate_lcos_slm_hologram_mraf"]}
{"id": "C101", "title": "Devices do not influence each other", "statement": "In a program that uses any number of DMD objects and never assigns dmd_state nor writes into arrays itself, every device always has exactly the state that its own constructor and its own method calls produce, in whatever order the calls of the different devices are interleaved and however often patterns are read or copied.", "quantifier": "all programs: any number of devices, any interleaving of calls with any arguments (including failing ones)", "why_tests_cant": "tests use one device at a time; sharing of a mutable array shows only under particular interleavings", "anchors": ["pySLM2/slm.py:DMD", "pySLM2/slm.py:DMD.circular_patch", "pySLM2/slm.py:DMD.set_dmd_state_on", "pySLM2/slm.py:DMD.set_dmd_state_off", "pySLM2/slm.py:DMD.set_dmd_grating_state", "pySLM2/slm.py:DMD.calculate_dmd_state"]}
{"id": "C102", "title": "A pattern read from a DMD is a snapshot", "statement": "The array obtained by reading dmd_state keeps its contents while further methods are called on the device, so that patterns can be collected for a controller's load_multiple.", "quantifier": "all devices and all later calls", "why_tests_cant": "needs an array kept across later calls of every kind; tests read dmd_state once, after the last call", "anchors": ["pySLM2/slm.py:DMD.circular_patch", "pySLM2/slm.py:DMD.set_dmd_grating_state", "pySLM2/slm.py:DMD.calculate_dmd_state", "pySLM2/util/controller.py:DMDControllerBase.load_multiple"]}
{"id": "C103", "title": "The simulation conserves power to within rounding", "statement": "With every operation rounded, the power reported for the image plane and the power reported behind the device both agree with the power of the field behind the device, within an explicit error: relative error (1+e)(1+4u)^k - 1 in the square root of the power, where u is the unit roundoff, e the error of the Fourier transform and k counts the roundings a pixel goes through, plus an explicit underflow term. In single precision and for panels of up to 2^24 pixels this is less than 2^-15.", "quantifier": "all input fields, device states, paddings, sizes, optics, orders of summation, transforms with bounded error, rounding functions with bounded error", "why_tests_cant": "a test compares two numbers for one field with a tolerance chosen by hand; the bound holds for every field and says what the tolerance has to be", "anchors": ["pySLM2/simulation.py:SLMSimulation.propagate_to_image", "pySLM2/simulation.py:SLMSimulation.get_output_power", "pySLM2/simulation.py:SLMSimulation.get_image_plane_power", "pySLM2/simulation.py:SLMSimulation.image_plane_pixel_area", "pySLM2/_lib.py:_inverse_fourier_transform"]}
{"id": "C104", "title": "Aberrations are passed on unless the hologram knows them, and correcting them costs no efficiency", "statement": "Compute an 'ideal' hologram for a beam F and illuminate it with rho*F: the whole field leaving the DMD is multiplied by rho. For an aberration rho=exp(i phi): the first order carries the phase phi if the hologram was computed for F, and is exactly the unaberrated one if it was computed for the aberrated beam (zeroth order times exp(i phi), conjugate order times exp(2 i phi)); calculate_dmd_state returns the same efficiency for both beams with 'ideal', 'simple' and 'random'. beam*aberration.as_complex_profile() is such a beam.", "quantifier": "every DMD, beam, factor, phase map, target, window, padding; profile objects that evaluate on the grid", "why_tests_cant": "two holograms and three simulations compared for all phase maps; the example script shows one picture.", "anchors": ["pySLM2/slm.py:DMD.calculate_dmd_state", "pySLM2/simulation.py:SLMSimulation.propagate_to_image", "pySLM2/profile.py:FunctionProfile.as_complex_profile"]}
{"id": "C105", "title": "More IFTA iterations never increase the error inside the signal window", "statement": "For the same amplitude, phases, beam and signal window, set_dmd_grating_state(method='ifta') with more iterations N leaves a simulated image whose squared difference from the image of the ideal grating, summed over the signal window, is no larger. docs/algorithm.md says: typically, the more iterations, the lower the RMS error.", "quantifier": "all devices, gratings, beams, 0/1 windows and pairs of iteration counts 1 <= N <= N'", "why_tests_cant": "The error depends on the whole iteration history of every mirror; a few gratings and counts show a trend, not a law.", "anchors": ["pySLM2/slm.py:DMD.set_dmd_grating_state", "pySLM2/_lib.py:_calculate_dmd_grating_ifta"]}
{"id": "C106", "title": "One IFTA iteration is never worse than thresholding inside the signal window", "statement": "With N=1 and s=1, 'ifta' gives an image whose squared difference from the image of the ideal pattern, weighted by the signal window, is at most that of 'simple': for any complex beam, any real window between 0 and 1, and both for gratings and for holograms of a target, provided no lit mirror has the ideal level 1/2 exactly. In a run of any length, the last iteration does not increase this error relative to the pattern it starts from.", "quantifier": "all devices, gratings, targets, beams and windows", "why_tests_cant": "An inequality between sums over all mirrors and all window pixels, for every beam and window.", "anchors": ["pySLM2/slm.py:DMD.set_dmd_grating_state", "pySLM2/slm.py:DMD.calculate_dmd_state", "pySLM2/_lib.py:_calculate_dmd_grating_ifta", "pySLM2/_lib.py:_calculate_dmd_grating_simple"]}
{"id": "C107", "title": "The random method has a linear first order", "statement": "With the 'random' method the probability that a mirror is on depends on the fringe phase and the amplitude A alone. Over one fringe its first Fourier coefficient is K(r) A with 2 - 1/r^2 <= K(r) <= 2, up to an error of at most exp(-pi r)/r (below 1e-10 at the default r = 10), and has no sine part: beam shapes are reproduced in proportion, unlike with thresholding (C80).", "quantifier": "every steepness r > 0, amplitude in [0, 1], device, carrier and phases, every random draw", "why_tests_cant": "needs integrals over phase and threshold for every amplitude and steepness", "anchors": ["pySLM2/_lib.py:_calculate_dmd_grating_random", "pySLM2/slm.py:DMD.set_dmd_grating_state"]}
{"id": "C108", "title": "Queries and missing operations do not disturb the display", "statement": "Asking a controller for its size or for a number image, and calling an operation its class does not implement (fire_software_trigger on the ALP, load_sequence on both), never changes what the board shows, even when the hardware fails on the way. The missing operations raise NotImplementedError (load_sequence: a plain Exception before initialisation). Removing all these calls from a history changes neither the final board state nor any other answer.", "quantifier": "every controller state, history and rendering; fault-free hardware for whole ALP histories, any hardware otherwise", "why_tests_cant": "all interleavings of calls", "anchors": ["pySLM2/util/controller.py:ALPController", "pySLM2/util/controller.py:LuxbeamController", "pySLM2/util/controller.py:DMDControllerBase"]}
{"id": "C109", "title": "Leaving a with block closes the ALP controller", "statement": "ALPController defines __exit__ so that 'with ALPController() as c: ...' releases the board whatever happens in the block.", "quantifier": "every block and controller state", "why_tests_cant": "the tests need the vendor hardware; nothing exercises the with statement", "anchors": ["pySLM2/util/controller.py:ALPController.__exit__"]}
{"id": "C110", "title": "number_image gives an image of the display's size", "statement": "For an initialised controller number_image(i) returns a bool array with Ny rows and Nx columns, where Nx and Ny are what the board reports, under every NumPy the package allows (numpy > 1).", "quantifier": "every controller, number, display size and NumPy version", "why_tests_cant": "a test runs under one NumPy version only", "anchors": ["pySLM2/util/sample.py:number_image", "pySLM2/util/controller.py:DMDControllerBase.number_image", "pySLM2/util/controller.py:ALPController.Nx", "pySLM2/util/controller.py:LuxbeamController.Nx"]}
{"id": "C111", "title": "The simulated powers agree also when the transform is a floating-point FFT", "statement": "With the NumPy backend the simulation's transform is a fast Fourier transform in double precision whose result is cast to single precision. However the lengths are factored into radices, the reported output power and image power agree with the power behind the device to a relative error of 2^-15 in amplitude. The error of a mixed-radix FFT of any precision is bounded by the errors of its butterflies and of its table of roots of unity; without rounding it is the inverse transform.", "quantifier": "all panels and paddings up to 4096 x 4096 (the general bound: all sizes), all factorisations, inputs, mirror states, summation orders, and tables with error up to 2^-52", "why_tests_cant": "tests compare powers for a few sizes, fields and the one FFT library at hand", "anchors": ["pySLM2/_lib.py:_numpy_ifft2", "pySLM2/_lib.py:_inverse_fourier_transform", "pySLM2/simulation.py:SLMSimulation.propagate_to_image"]}
{"id": "C112", "title": "The built-in devices describe the documented panels", "statement": "A fresh DLP9500, DLP7000 or DLP9000 has the panel of the data sheet (1920 x 1080 at 10.8 um, 1024 x 768 at 13.68 um, 2560 x 1600 at 7.56 um): dmd_state is an all-False bool array of shape (Ny, Nx), fourier_plane_grid gives the centred pixel positions with y upwards, set_dmd_state_on/off followed by pack_dmd_state gives Nx*Ny/8 bytes 0xff or 0x00, and first_order_origin lies at distance wavelength*focal_length/(periodicity*pitch) from the axis in the direction theta. A fresh PLUTO_2 has a complex zero state of 1080 x 1920 pixels on an 8 um grid.", "quantifier": "every wavelength, focal length, period, angle and order of the built-in classes", "why_tests_cant": "The tests construct a few devices with fixed parameters and check only the packed bytes; swapped sizes of the constructor call or a wrong pitch in one class pass every test which does not use that class.", "anchors": ["pySLM2/slm.py:DLP9500.__init__", "pySLM2/slm.py:DLP7000.__init__", "pySLM2/slm.py:DLP9000.__init__", "pySLM2/slm.py:PLUTO_2.__init__", "pySLM2/slm.py:DMD.pack_dmd_state", "pySLM2/slm.py:DMD.first_order_origin"]}
{"id": "C113", "title": "A Hermite-Gauss beam gives a Hermite-Gauss image", "statement": "HermiteGaussian(x0, y0, a, w, n, m) propagated through a device of uniform transmission c gives at every pixel (X, Y) of the image plane, for every padding, c times the mode of the same orders n, m with waist lambda f/(pi w) and amplitude a w/waist, times i^(n+m) and the phase ramp of the displaced beam, up to an explicit error made of the pixel pitch and of what the array cuts off. The profile itself never exceeds an explicit bound |a| s(n) s(m). For HermiteGaussian(0, 0, a, 1 mm, 1, 0) on a DLP9500 with all mirrors on, every pixel within one waist of the axes is within 1 % of |a| w/waist of the two-lobed mode: the node and the sign change across it survive sampling.", "quantifier": "every pair of orders, device size, pitch and optics, every waist, amplitude and beam centre on the array, every padding and image pixel", "why_tests_cant": "the orders are unbounded; the unit tests only look at the fundamental mode", "anchors": ["pySLM2/simulation.py:SLMSimulation.propagate_to_image", "pySLM2/profile.py:HermiteGaussian", "pySLM2/_lib.py:_inverse_fourier_transform"]}
{"id": "C114", "title": "The thresholds of IFTA rise strictly to one half, also after rounding", "statement": "With step = 0.5/N and threshold (i+1)*step computed in double or single precision, the N thresholds of IFTA are positive, strictly increasing, never above one half, within a relative error 2u+u^2 of (i+1)/(2N), and the last one is at least 1/2 - u/2 (u the unit roundoff). No mirror is therefore both below the threshold and above one minus the threshold, and the last binarization leaves only grey levels in [1/2 - u/2, 1/2]. The default N=200 ends exactly at one half in double precision, N=49 does not.", "quantifier": "both precisions of the backend, every number of iterations up to 2^20, every iteration and every grey level", "why_tests_cant": "the rounding of 0.5/N depends on N in no simple way; a test sees a few N and cannot see the last bit of a threshold inside a compiled loop", "anchors": ["pySLM2/_lib.py:_calculate_dmd_grating_ifta", "pySLM2/_lib.py:_ifta_binarize_hologram", "pySLM2/_backend.py:_BackEnd.dtype"]}
{"id": "C115", "title": "A Laguerre-Gauss beam gives a Laguerre-Gauss image of the same charge", "statement": "Every Laguerre-Gauss mode is the explicit combination of Hermite-Gauss modes obtained by multiplying out (x^2+y^2)^p (x -+ i y)^|l| (for either sign of l), divided by (-4)^p p! 2^|l|. Hence LaguerreGaussian(x0, y0, a, w, l, p) propagated through a device of uniform transmission c gives at every pixel of the image plane c times the Laguerre-Gauss mode of the same l and p with waist lambda f/(pi w) and amplitude a w/waist, times i^(2p+|l|) and the phase ramp of the displaced beam, up to an explicit sampling and truncation error. The profile never exceeds an explicit bound. For l = +-1 and w = 1 mm on a DLP9500 with all mirrors on, every pixel within one waist of the axes is within 1 % of |a| w/waist of the vortex a (x -+ i y) exp(-r^2/waist^2): the dark centre and the sense of rotation survive.", "quantifier": "every charge l of either sign, radial order p, device size, pitch and optics, every waist, amplitude and beam centre on the array, every padding and image pixel", "why_tests_cant": "l and p are unbounded, and the sign of the charge in the image depends on the sign conventions of the transform and of both grids at once", "anchors": ["pySLM2/simulation.py:SLMSimulation.propagate_to_image", "pySLM2/profile.py:LaguerreGaussian", "pySLM2/_lib.py:_inverse_fourier_transform"]}
{"id": "C116", "title": "Powers of Hermite-Gauss modes on a panel add up", "statement": "A HermiteGaussian(x0, y0, a, w, n, m) beam propagated by the simulation reports the input power pi a^2 w^2/2 * 2^(n+m) n! m!, up to an explicit error of second order in the pixel pitch plus the parts of the beam at and beyond the edges of the array. More generally, for any input whose field is a finite combination of Hermite-Gauss modes of one waist and centre, the reported power is the sum of the powers of the modes: the cross terms are within the explicit overlap error. On a device of uniform transmission c, output and image plane power are |c|^2 times that number exactly.", "quantifier": "every pair of orders, every finite set of modes and complex coefficients, every device size, pitch and optics, waist, amplitude, padding and beam centre on the array", "why_tests_cant": "the orders are unbounded and the unit test checks only the power of the fundamental mode at one waist; orthogonality of sampled modes needs all pairs", "anchors": ["pySLM2/simulation.py:SLMSimulation.get_input_power", "pySLM2/simulation.py:SLMSimulation.propagate_to_image", "pySLM2/profile.py:HermiteGaussian"]}
{"id": "C117", "title": "Powers of Laguerre-Gauss beams, and of sums of them", "statement": "A LaguerreGaussian(x0, y0, a, w, l, p) beam reports the input power pi a^2 w^2/2 * (p+|l|)!/p!, up to an explicit sampling and truncation error; the profile obtained by adding two such profiles of the same waist and centre that differ in l (for example only in its sign) or in p reports the sum of the two powers, up to the same kind of error. On a device of uniform transmission c, output and image plane power are |c|^2 times the input power. For l = +-1 and w = 1 mm on a DLP9500 with all mirrors on, the reported powers are within 2 % of pi a^2 w^2/2.", "quantifier": "every charge l of either sign, radial order p, pair of different beams, device size, pitch and optics, waist, amplitudes, padding and beam centre on the array", "why_tests_cant": "l and p are unbounded; the claim is about all pairs of beams", "anchors": ["pySLM2/simulation.py:SLMSimulation.get_input_power", "pySLM2/simulation.py:SLMSimulation.propagate_to_image", "pySLM2/profile.py:LaguerreGaussian", "pySLM2/profile.py:FunctionProfile.__add__"]}
{"id": "C118", "title": "Luxbeam reset and trigger lines", "statement": "For every sequence of operations on a new LuxbeamController and every pattern of hardware failures: the sequencer program and the image-count register are only ever changed while the sequencer is held in reset, and the sequencer is never started while in reset. An initialize, load_single or load_multiple that returns normally leaves the sequencer out of reset. As long as lowering the software trigger line has not failed, the line is low between operations and the number of rising edges, the triggers that the sequencer waits for (TRIG_MODE_POSITIVE_EDGE), is the number of fire_software_trigger calls that returned normally. When lowering it did fail, the line stays high and the next fire_software_trigger that returns normally produces no rising edge: it is lost, but the line is low again.", "quantifier": "every operation history, fault pattern and inversion flag; every controller state for the last claim", "why_tests_cant": "There is no board in the test suite; whether a register is written outside reset depends on the order of calls in three methods and on where an exception cut an earlier one short.", "anchors": ["pySLM2/util/controller.py:LuxbeamController.initialize", "pySLM2/util/controller.py:LuxbeamController.load_single", "pySLM2/util/controller.py:LuxbeamController.load_multiple", "pySLM2/util/controller.py:LuxbeamController.fire_software_trigger"]}
{"id": "C119", "title": "The target of Gerchberg-Saxton may change sign", "statement": "A target that takes negative values, such as the HermiteGaussian profile with n = m = 1 of the two LCOS examples, is treated as its magnitude: the image-plane error sum (|field|-|target|)^2 of a beam of flat phase does not increase with the number of iterations N.", "quantifier": "every target, beam of flat phase, N, initial phase", "why_tests_cant": "The examples only plot the result; a run from random phases does not show whether an iteration made the image worse.", "anchors": ["pySLM2/slm.py:LCOS_SLM.calculate_hologram", "pySLM2/_lib.py:_calculate_lcos_slm_hologram_gs"]}
{"id": "C120", "title": "IFTA is better than the random method inside the signal window", "statement": "docs/algorithm.md: the ifta method yields a lower RMS error within the signal window than the random method. That is, for one grating (amplitude, phases), beam and 0/1 signal window, the image simulated with the pattern of method 'ifta' (s = 1, N >= 1) is at least as close to the image of the ideal pattern, summed over the window, as the image with the pattern of method 'random'.", "quantifier": "every device, grating, beam, window, iteration count, spread parameter r and draw of the random numbers", "why_tests_cant": "The documentation compares the two methods on one pattern; the claim is about all gratings and all draws.", "anchors": ["pySLM2/_lib.py:_calculate_dmd_grating_ifta", "pySLM2/_lib.py:_ifta_binarize_hologram", "pySLM2/_lib.py:_calculate_dmd_grating_random", "pySLM2/slm.py:DMD.set_dmd_grating_state"]}
{"id": "C121", "title": "Pixel areas are the cells of the grids", "statement": "For any device and padding: the product of the distances of neighbouring points of image_plane_padded_grid is image_plane_pixel_area everywhere on the grid, the product for fourier_plane_padded_grid is fourier_plane_pixel_area; both grids are rectangular, the padded image grid has the optical axis at pixel (Ny//2, Nx//2). The areas are positive (nonzero pitch, wavelength and focal length), area of an image pixel times area of a device pixel times the number of pixels is (wavelength*focal_length)^2, so the size of the image plane does not depend on the padding. image_plane_pixel_area fails exactly when there are no pixels or their pitch is 0.", "quantifier": "every device size, pitch, optics and padding; every pair of neighbouring grid points", "why_tests_cant": "test_pixel_area compares one corner of the grids of one device for two paddings.", "anchors": ["pySLM2/simulation.py:SLMSimulation.image_plane_pixel_area", "pySLM2/simulation.py:SLMSimulation.fourier_plane_pixel_area", "pySLM2/simulation.py:SLMSimulation.image_plane_padded_grid", "pySLM2/simulation.py:SLMSimulation.fourier_plane_padded_grid"]}
{"id": "C122", "title": "The window of calculate_dmd_state filters the target, not the input", "statement": "For every method and every input: the stored pattern and the returned value (or exception) of calculate_dmd_state depend on the target and the window only through the product of the target's Fourier spectrum and the window. Giving a window is the same as giving the filtered target without one; two windows act as their product; a positive constant c as a window leaves the pattern alone and divides eta by c. Hence the window is not, as the docstring says, applied to the input profile: on the input the constant multiplies eta by c.", "quantifier": "all devices, inputs (full arrays or scalars), full-size targets, windows (arrays, scalars or None), methods, keyword arguments and random draws", "why_tests_cant": "Tests give one window and look at one image; whether the window acts on the target's spectrum or on the input shows in all patterns and in eta together.", "anchors": ["pySLM2/slm.py:DMD.calculate_dmd_state", "pySLM2/slm.py:DMD._calc_amp_phase"]}
{"id": "C123", "title": "Rounding changes a grating only a little, and flips mirrors only at the threshold", "statement": "set_dmd_grating_state evaluated in floating point, with period, angle, grid and every step rounded: each grey level of the ideal grating differs from the exact one by at most 16 v (Phi + 8), where v bounds the error of rounding, cosine and sine, and Phi is the largest carrier phase possible at that mirror. A mirror of the simple grating differs from the exact pattern only if its exact grey level is that close to 1/2. On a DLP9500 with a period of at least 4 mirrors the bound is below 1/150 in single precision and below 1e-10 in double precision.", "quantifier": "all roundings, devices, amplitudes in [-1, 1], phases in [-4, 4], angles in [-4, 4], sign conventions and mirrors", "why_tests_cant": "Tests compare with a tolerance on one setting; the error grows with the distance of the mirror from the centre and with the precision, and no test enumerates these.", "anchors": ["pySLM2/_lib.py:_grating_phase", "pySLM2/_lib.py:_calculate_dmd_grating_ideal", "pySLM2/_lib.py:_calculate_dmd_grating_simple", "pySLM2/slm.py:DMD.set_dmd_grating_state"]}
{"id": "C124", "title": "Rounding moves the duty cycle of the random grating only a little", "statement": "set_dmd_grating_state with method random, evaluated in floating point: a mirror differs from the exact pattern only if its random number lies within r (33 v (Phi + 8) + 3 sqrt v) + 6 v of the exact duty cycle, where r is the steepness, v bounds the error of rounding and of the library functions, and Phi is the largest carrier phase possible at that mirror. The chance that a uniform random number is one for which rounding changes the mirror is at most the same bound. On a DLP9500 with a period of at least 4 mirrors this is 0.013 r + 1e-6 in single precision and 1e-7 r + 1e-14 in double precision.", "quantifier": "all roundings, devices, amplitudes in [0, 1], phases and angles in [-4, 4], steepnesses, sign conventions, mirrors and random numbers", "why_tests_cant": "A test draws random numbers and cannot tell a shifted duty cycle from chance; the square root comes from acos near 1 and -1, where the derivative is infinite, so no test at a generic phase shows it.", "anchors": ["pySLM2/_lib.py:_grating_phase", "pySLM2/_lib.py:_calculate_dmd_grating_random", "pySLM2/slm.py:DMD.set_dmd_grating_state"]}
{"id": "C125", "title": "Reflected beams and targets give reflected holograms, and a reflected target makes the LCOS display the wanted image", "statement": "calculate_hologram with method gs or mraf: with the complex conjugate beam, the target (and conjugate window) reflected about the optical axis, and negated starting phases, every stored phase is negated. With beam, target, window and random numbers reversed along x, along y or both, the stored hologram is exactly the reversed one. For a real non-negative beam, calling gs with the target reflected about the axis makes what the simulator displays approach the wanted target: the squared distance between displayed amplitude and target never increases with the number of iterations. For a uniform beam and a spot one iteration displays exactly that spot.", "quantifier": "all devices of any size, beams, targets, windows, mixing parameters, random numbers and iteration counts", "why_tests_cant": "C43 shows that the image displayed is not the one optimised. Whether reflecting the target is a cure for every beam, size (odd and even) and number of iterations cannot be told from a finite set of images.", "anchors": ["pySLM2/slm.py:LCOS_SLM.calculate_hologram", "pySLM2/_lib.py:_calculate_lcos_slm_hologram_gs", "pySLM2/_lib.py:_calculate_lcos_slm_hologram_mraf", "pySLM2/simulation.py:SLMSimulation.propagate_to_image"]}
{"id": "C126", "title": "Every phase change of Gerchberg-Saxton is paid for, and a run that stalls stays where it is", "statement": "calculate_hologram with method gs, a real non-negative beam A and a non-negative target: let B be the beam that would give the current image with its amplitudes replaced by the target. One iteration lowers the squared error by at least the mean over the pixels of A |B| |change of the phase factor|^2. Hence these movements sum to at most the initial error over any number of iterations, and tend to zero. If one iteration does not lower the error (and neither image nor B vanishes accidentally), it left every lit pixel unchanged, and every larger iteration count stores the same hologram.", "quantifier": "all devices, real beams, targets, random numbers and iteration counts", "why_tests_cant": "A test sees the error of finitely many iterations; it cannot show that the phases settle, nor that a flat error curve means that more iterations are useless.", "anchors": ["pySLM2/slm.py:LCOS_SLM.calculate_hologram", "pySLM2/_lib.py:_calculate_lcos_slm_hologram_gs"]}
{"id": "C127", "title": "An LCOS loses no power, also after rounding", "statement": "propagate_to_image of an LCOS with real phases, then get_input_power, get_output_power and get_image_plane_power, all evaluated in floating point: the square roots of the three reported powers agree with that of the exact power of the input up to explicit relative and absolute errors, made of the rounding, the library's cosine and sine, the order of summation and the error of the transform. In single precision, on up to 2^24 pixels including the padding, the relative errors are at most 2^-15, 2^-14 and 2^-14. The phases need |phase| <= 7, which every phase stored by calculate_hologram meets.", "quantifier": "all devices, paddings, inputs, phases up to 7, orders of summation, and every arithmetic, cosine, sine and transform of bounded error", "why_tests_cant": "The unit test compares the powers of one LCOS at one tolerance; it cannot say what tolerance holds for all panels, beams and phase patterns.", "anchors": ["pySLM2/simulation.py:SLMSimulation.propagate_to_image", "pySLM2/simulation.py:SLMSimulation.get_input_power", "pySLM2/slm.py:LCOS_SLM._state_tensor"]}
{"id": "C128", "title": "MRAF lowers the error inside its window, against the target times m/(1-m)", "statement": "calculate_hologram with method mraf and mixing factor m, 0 <= m < 1: the stored hologram is the one of mixing factor 1/2 and the target multiplied by m/(1-m), for any beam and window. With a beam of constant phase, a non-negative target T and a window W with values in [0,1], the error sum W (|image| - m/(1-m) T)^2 never increases with the number of iterations and converges, and each iteration lowers it by at least the weighted squared phase movement. The default 0.4 thus aims at 2/3 of the target amplitude: the error against T itself can grow.", "quantifier": "all devices, beams of constant phase, targets, windows with values in [0,1], mixing factors in [0,1), random numbers and iteration counts", "why_tests_cant": "The error curve against the target itself is not monotone, so a test has nothing to compare with; that another quantity is monotone in every run needs a proof.", "anchors": ["pySLM2/slm.py:LCOS_SLM.calculate_hologram", "pySLM2/_lib.py:_calculate_lcos_slm_hologram_mraf"]}
{"id": "C129", "title": "One hologram for several beams: first orders add up and inverse efficiencies bound the total", "statement": "calculate_dmd_state for the target sum a_k T_k, same input profile and window (methods ideal, simple, random): the reported efficiency eta satisfies 1/eta <= sum |a_k| / eta_k where eta_k is reported for T_k alone, with equality for equal beams with positive weights. With method ideal and an unpadded simulation, if the first order of the hologram of T_k is eta_k D_k at the image plane, the one of the sum is eta sum a_k D_k: the beams keep their relative amplitudes and phases and share one common loss.", "quantifier": "all numbers of beams, complex weights, targets, inputs, windows, gratings and devices with positive scaling factor whose spectra vanish at dark mirrors", "why_tests_cant": "The examples show two Gaussian beams; that no set of beams can lose more than the sum, and that their ratio is kept exactly, ranges over all sets.", "anchors": ["pySLM2/slm.py:DMD.calculate_dmd_state", "pySLM2/_lib.py:calculate_dmd_grating", "pySLM2/simulation.py:SLMSimulation.propagate_to_image"]}
{"id": "C130", "title": "Overlapping circular patches: the last one wins, separate ones can be laid in any order", "statement": "After any sequence of circular_patch calls with any arguments and methods, some of which may raise, each mirror shows the full-frame grating of the last successful patch whose circle contains it (converted to the element type of dmd_state), or what it showed before; dmd_state keeps shape and element type, and each call raises or not as it would alone. Hence patches with disjoint circles commute, a patch covered by later ones leaves no trace, and repeating a patch changes nothing.", "quantifier": "all sequences of patches, centres, diameters, profiles, methods, devices and previous patterns", "why_tests_cant": "Tests lay one patch; the outcome of all sequences, with failures in between, cannot be enumerated.", "anchors": ["pySLM2/slm.py:DMD.circular_patch", "pySLM2/slm.py:DMD.set_dmd_grating_state"]}
{"id": "C131", "title": "A correct way to use the LCOS holograms with an aberrated beam", "statement": "For a beam |F| exp(i phi), calling calculate_hologram with the profile |F| and assigning slm_state = phi - slm_state makes the simulation with the full beam display exactly the image the algorithm computed, neither reflected nor aberrated: the error of the simulated amplitudes (in units of eta) is the error of the algorithm, and never increases with the number of iterations. Holds for gs and, inside its window and against m/(1-m) times the target, for mraf. (Passing the aberrated beam, or using slm_state as stored, does not: C41, C43.)", "quantifier": "all devices, beams of any phase, non-negative targets, windows with values in [0,1], mixing factors in [0,1), random numbers and iteration counts", "why_tests_cant": "The library's tests never display a hologram with an aberrated beam; agreement for every beam and every iteration count needs a proof.", "anchors": ["pySLM2/slm.py:LCOS_SLM.calculate_hologram", "pySLM2/slm.py:LCOS_SLM._state_tensor", "pySLM2/_lib.py:_calculate_lcos_slm_hologram_gs", "pySLM2/_lib.py:_calculate_lcos_slm_hologram_mraf", "pySLM2/simulation.py:SLMSimulation.propagate_to_image"]}
{"id": "C132", "title": "A narrow Gaussian beam gives a usable hologram in single precision", "statement": "In the default single precision, calculate_dmd_state for a Gaussian beam narrower than the device returns a positive efficiency and a non-trivial pattern, as it does in exact arithmetic. (Fails: with a waist of at most 1 mm on a DLP9500 or DLP9000, 0.66 mm on a DLP7000, exp underflows to 0 at the corner mirror, the amplitude ratio there is infinite, and whenever the target's spectrum is non-zero at that mirror every mirror is turned off and eta is 0, although the exact beam gives a positive efficiency.)", "quantifier": "all waists up to the bound, amplitudes, targets whose windowed spectrum does not vanish at the corner, gratings, random numbers, methods simple and random (ideal: eta 0, values 0 or NaN); any rounding at least as fine as binary32 (with or without gradual underflow) and any exponential that underflows", "why_tests_cant": "The unit tests use a uniform beam or a Gaussian wide enough not to underflow; the boundary depends on the waist, the panel and the dtype, and one dark mirror blanks all others.", "anchors": ["pySLM2/profile.py:HermiteGaussian._func", "pySLM2/slm.py:DMD.calculate_dmd_state", "pySLM2/slm.py:DMD._calc_amp_phase", "pySLM2/_backend.py:_BackEnd.dtype"]}
{"id": "C133", "title": "One grey level that is not finite spoils the whole image, and only that run", "statement": "If one grey level of a DMD is NaN or infinite, propagate_to_image still succeeds: the input field and get_input_power() are as usual, the output field is not finite exactly at such mirrors, every pixel of the image is not finite and so are get_output_power() and get_image_plane_power(). block_zeroth_order sets the pixels inside its disc to 0 and leaves the others not finite. The next propagation is not affected. An ideal hologram for a beam with a dark pixel that the target needs is such a state: every later simulation with it, with any beam, gives no image.", "quantifier": "all beams, paddings, device sizes (odd or even), states with at least one such level, targets, windows, radii, earlier results", "why_tests_cant": "The unit tests never simulate NaN. That a single mirror out of two million reaches every pixel, but neither the input field nor the next run, is a statement about all states and histories.", "anchors": ["pySLM2/simulation.py:SLMSimulation.propagate_to_image", "pySLM2/simulation.py:SLMSimulation.get_output_power", "pySLM2/simulation.py:SLMSimulation.get_image_plane_power", "pySLM2/simulation.py:DMDSimulation.block_zeroth_order", "pySLM2/slm.py:DMD._state_tensor", "pySLM2/slm.py:DMD._calc_amp_phase"]}
{"id": "C134", "title": "A hologram computed in floating point is the exact hologram up to a stated error", "statement": "Let every step of calculate_dmd_state (transform of the target, window, modulus and angle, ratio and maximum, the mapping to grey levels, the efficiency) be rounded. For an ideal hologram each grey level stays within 16 v (largest carrier phase + 12) + 4 e K of the exact one, the efficiency has relative error at most 2 e K + 40 v, and a mirror of a simple hologram differs from the exact one only where the exact grey level is that near 1/2; v is the error of the library's functions, e that of the transform, and K the norm of the beam over its darkest pixel times the part of the spectrum removed by the window. On a DLP9500 in single precision with the transform of the NumPy backend that is 1/40 + K/2^20 and 1/50000 + K/2^21; without rounding the formulas are the exact model.", "quantifier": "all devices up to 2^20 pixels a side, beams without dark pixels, targets, windows of modulus at most 1, periods, angles up to 4 rad, both signs of the order; all arithmetics with monotone rounding, libraries and factorisations of the sizes", "why_tests_cant": "The tests check a few states of small panels against their own run. A bound that holds for every beam and target, and names the dark pixels as the place where accuracy is lost, cannot be sampled.", "anchors": ["pySLM2/slm.py:DMD.calculate_dmd_state", "pySLM2/slm.py:DMD._calc_amp_phase", "pySLM2/_lib.py:_numpy_fft2", "pySLM2/_lib.py:_fourier_transform", "pySLM2/_lib.py:_calculate_dmd_grating_ideal", "pySLM2/_lib.py:_calculate_dmd_grating_simple"]}
{"id": "C135", "title": "The image computed in floating point is the exact image up to a stated error", "statement": "Let propagate_to_image be rounded at every step. The computed image differs from the exact one by a field whose power has a square root of at most ((1+e)(1+4u)^6-1) times that of the light behind the device, plus that of the light misplaced by errors of the device's state, plus an explicit underflow term; e is the error of the transform and u that of the arithmetic. With NumPy's transforms in single precision an LCOS is off by at most 2^-17 of the input, a DLP9500 showing grey levels that were themselves computed in single precision by 1/39 + K/2^20 (K as in C134), and one with switched mirrors by 2^-18 plus only the light on mirrors whose exact grey level is within 1/40 + K/2^20 of 1/2.", "quantifier": "all devices, states, input fields, paddings (padded sizes up to 4096 for the single-precision numbers), arithmetics with monotone rounding, and factorisations of the sizes", "why_tests_cant": "Tests compare powers or a few images with their own output; an error bound on the whole field for every input cannot be obtained by running.", "anchors": ["pySLM2/simulation.py:SLMSimulation.propagate_to_image", "pySLM2/_lib.py:_numpy_ifft2", "pySLM2/_lib.py:_inverse_fourier_transform", "pySLM2/slm.py:DMD.calculate_dmd_state", "pySLM2/slm.py:LCOS_SLM.calculate_hologram"]}
{"id": "C136", "title": "Rounding costs Gerchberg-Saxton and MRAF at most a stated amount per iteration", "statement": "Run GS or MRAF with every operation rounded. In exact arithmetic the distance between the image and the target never grows (C40, C128). Rounded, it grows by at most a fixed loss per iteration, so a longer run ends no further away than a shorter one plus the number of extra iterations times the loss. The loss is (2e+16v)|E|/sqrt(N) + (2e'+15v)|T| plus underflow terms for GS, where e and e' are the errors of the transforms and v that of cosine, sine and angle; MRAF has the same form for the distance inside the window to the target times the ratio of the rounded mixing factors. In single precision with NumPy's transforms the loss is 1/100000 (GS) or 1/39000 (MRAF) of |E|/sqrt(N) + |T|. Without rounding the runs are the phases calculate_hologram stores.", "quantifier": "all beams of constant phase, targets, windows of zeros and ones, mixing factors (up to 0.99 in single precision), starting phases, numbers of iterations, array sizes (up to 4096 in single precision), arithmetics", "why_tests_cant": "A run shows one seed and one target; the accumulated rounding of hundreds of iterations for every beam and target cannot be sampled.", "anchors": ["pySLM2/_lib.py:_calculate_lcos_slm_hologram_gs", "pySLM2/_lib.py:_calculate_lcos_slm_hologram_mraf", "pySLM2/slm.py:LCOS_SLM.calculate_hologram"]}
{"id": "C137", "title": "A wide Gaussian beam gives a usable hologram in single precision", "statement": "The complement of C132. Sampling HermiteGaussian(n=m=0) on the mirror grid in floating point gives the mode's value at each mirror with a relative error of at most 24u times the reach (squared distance in waists, each plus one) plus twice the error of the exponential, up to underflow. Beams of equal phase whose amplitudes differ by a fraction delta give holograms whose grey levels differ by at most 4 delta, whose efficiencies differ by delta, and whose mirrors differ only at levels within 4 delta of 1/2. Together: for a centred waist of at least 6 mm on a DLP9500, levels computed in single precision from the sampled beam are within 1/40 + K/650 of those of the exact Gaussian, mirrors differ only that close to 1/2, and the efficiency is within 1/25000 + K/1400, where K = exp(142 mm^2/w^2) (at most 68) times the share the window costs.", "quantifier": "all beam centres, amplitudes and waists (6 mm and more for the panel), devices, arithmetics, exponentials, targets in single precision and windows", "why_tests_cant": "A test sees one waist and cannot tell the tolerable waists from those that C132 shows to fail.", "anchors": ["pySLM2/profile.py:HermiteGaussian._func", "pySLM2/slm.py:SLM._fourier_plane_grid", "pySLM2/slm.py:DMD.calculate_dmd_state"]}
{"id": "C138", "title": "Image-plane coordinates keep their order, symmetry and axis after rounding", "statement": "image_plane_grid and image_plane_padded_grid, with numpy.fft.fftfreq and the scaling factor evaluated in double precision, the cast to BACKEND.dtype and the final product rounded: columns and rows are strictly ordered, the pixel (Ny//2, Nx//2) is exactly on the axis, opposite pixels have exactly opposite coordinates, and every coordinate has a relative error of at most 3.01 roundings of BACKEND.dtype plus 4.01 of double precision. In single precision this is 2^-22 for every device with pixel size and scaling factor above 10^-12. Without rounding the grid is that of C13.", "quantifier": "all devices and paddings up to 2^20 pixels a side, all arithmetics meeting the record, no underflow", "why_tests_cant": "A test compares some coordinates with a tolerance; it cannot show distinctness, exact symmetry or a relative error for all sizes, wavelengths and lenses.", "anchors": ["pySLM2/slm.py:SLM._image_plane_grid", "pySLM2/simulation.py:SLMSimulation._image_plane_padded_grid"]}
{"id": "C139", "title": "Windows select the intended pixels after rounding", "statement": "A RectangularWindowRectangle sampled on the computed image-plane grid has the wanted value at every pixel farther than 10u (|x| + |x0| + |w|) + 4 eta from its edges; a RectangularWindowCircular at every pixel farther than 10u (|x| + |x0| + |y| + |y0| + |r|) + 6 eta from the circle. In single precision a rectangle of 2m+1 by 2l+1 pitches centred on a pixel selects exactly these pixels, for panels of up to 2^14 pixels a side. For any rounding larger windows contain smaller ones with the same centre, windows of width zero or less are empty, and centred windows are mirror-symmetric to the last pixel.", "quantifier": "all devices, centres, widths and radii of either sign, all arithmetics meeting the record", "why_tests_cant": "A pixel on the wrong side of an edge by rounding appears only for particular sizes and positions; tests try few.", "anchors": ["pySLM2/window.py:RectangularWindowRectangle._func", "pySLM2/window.py:RectangularWindowCircular._func", "pySLM2/slm.py:SLM.profile_to_tensor"]}
{"id": "C140", "title": "A stack of targets gets one common normalisation", "statement": "calculate_dmd_state does not look at the rank of its arrays. For complex arrays with any leading axes (target, input and window each either one image or a stack) it leaves a stack of patterns of the same leading axes in dmd_state. Pattern b is the hologram of image b, but the amplitudes of all patterns are divided by the largest one of the whole stack. So the returned efficiency is the smallest of those of the single images, a level is the level of the single hologram times the quotient of the two efficiencies, an image without light at the mirrors gives a pattern of zeros, and with method 'simple' a pattern whose own efficiency is at least twice the common one is blank. Targets with fewer than two axes, stacks of different lengths and stacks along the last axis raise and leave dmd_state as it was. For arrays with two axes or none this is the call of the other properties.", "quantifier": "all DMDs, all stacks of any number of leading axes, inputs, windows, r and thresholds; methods ideal, simple, random", "why_tests_cant": "No test passes more than one target at once; the coupling of the patterns through the common maximum shows only for images of different brightness.", "anchors": ["pySLM2/slm.py:DMD._calc_amp_phase", "pySLM2/slm.py:DMD.calculate_dmd_state"]}
{"id": "C141", "title": "Patterns of a stack are packed one after the other and cannot be simulated", "statement": "pack_dmd_state of a stack of K binary patterns returns the bytes of the patterns one after the other if Ny*Nx is a multiple of 8; in general it returns ceil(K Ny Nx / 8) bytes, so patterns share bytes otherwise. propagate_to_image with such a state raises in tf.pad after replacing the input field only; a stack as input profile raises before any change.", "quantifier": "all stacks, sizes, simulations and paddings", "why_tests_cant": "A test of pack_dmd_state uses one pattern of one panel.", "anchors": ["pySLM2/slm.py:DMD.pack_dmd_state", "pySLM2/simulation.py:SLMSimulation.propagate_to_image"]}
{"id": "C142", "title": "LCOS holograms of stacks: every image for itself, with the target half a stack further on", "statement": "LCOS_SLM.calculate_hologram does not look at the rank of its arrays. For an input with any leading axes, and a target (and MRAF window) that can be spread over the input by broadcasting, it leaves phases of the shape of the input in slm_state. Hologram b is what a call on input b alone stores, with the random numbers at b, and with the target and window at the cyclic position b + K//2 along every leading axis of length K. Every other call raises and leaves slm_state as it was: fewer than two axes of the input, a target or window without axes, or one that cannot be spread over the input, such as a stack of targets for one input, whatever the number of iterations. For arrays with two axes or none this is the call of the other properties.", "quantifier": "all devices, stacks with any number of leading axes, targets and windows of any shape, methods, numbers of iterations, mixing factors and random numbers", "why_tests_cant": "Tests pass one image; that the shift runs over the leading axes shows only in the order of a stack of different targets.", "anchors": ["pySLM2/slm.py:LCOS_SLM.calculate_hologram", "pySLM2/_lib.py:_calculate_lcos_slm_hologram_gs", "pySLM2/_lib.py:_calculate_lcos_slm_hologram_mraf"]}
{"id": "C143", "title": "The holograms of a stack of targets are in the order of the targets", "statement": "Phases number k that calculate_hologram leaves for a stack of inputs and targets are the phases of a call on input k and target k alone. FALSE of the code: the ifftshift of the targets runs over the leading axes too, without a shift back, so two targets are exchanged.", "quantifier": "all devices, stacks, numbers of iterations and random numbers", "why_tests_cant": "Two images suffice, but no test has two; each phase pattern looks like a valid hologram.", "anchors": ["pySLM2/slm.py:LCOS_SLM.calculate_hologram", "pySLM2/_lib.py:_calculate_lcos_slm_hologram_gs"]}
{"id": "C144", "title": "IFTA on stacks: own s for every image, signal window half a stack further on", "statement": "calculate_dmd_state with method 'ifta' accepts a stack of targets too, with the input, window and signal window each one image or a stack. Pattern b is the pattern of the call for image b alone, with s multiplied by the quotient of the common efficiency and its own one (so dimmer images are computed with a smaller s), and with the signal window at the cyclic position b + K//2 along every leading axis of length K. The returned efficiency is the one of method 'ideal' for the same stack. An image without light at the mirrors gets all mirrors off. A missing signal window, one without axes and one that cannot be spread over the patterns raise, and dmd_state stays. For arrays with two axes or none this is the call of the other properties.", "quantifier": "all DMDs, stacks with any number of leading axes, inputs, windows, signal windows of any shape, N and s", "why_tests_cant": "No test passes a stack; the quotient of efficiencies acts inside the nonlinear iteration and the moved windows show only if they differ.", "anchors": ["pySLM2/slm.py:DMD.calculate_dmd_state", "pySLM2/_lib.py:_calculate_dmd_grating_ifta"]}
{"id": "C145", "title": "Negative padding is accepted, crops the grids, and allows no propagation", "statement": "The constructors accept any integer padding. fourier_plane_padded_grid with -c is the panel's own grid without c pixels at each border, and image_plane_padded_grid is the centred grid of the remaining Nx + 2 padding_x by Ny + 2 padding_y pixels. If nothing remains along an axis, image_plane_padded_grid raises ZeroDivisionError, with fewer than no pixels ValueError (the x axis is looked at first), and fourier_plane_padded_grid raises only for fewer than none. propagate_to_image raises for every profile if one padding is negative and leaves the object as it was, so after any sequence of calls there is no field, block_zeroth_order raises and so do the three powers.", "quantifier": "all devices, integer paddings, profiles and sequences of calls", "why_tests_cant": "Tests use paddings that are zero or positive.", "anchors": ["pySLM2/simulation.py:SLMSimulation.__init__", "pySLM2/simulation.py:SLMSimulation.propagate_to_image", "pySLM2/simulation.py:SLMSimulation._image_plane_padded_grid", "pySLM2/simulation.py:SLMSimulation._fourier_plane_padded_grid"]}
{"id": "C146", "title": "Nothing overflows at practical sizes", "statement": "In single precision (with gradual underflow or flush to zero) and in double precision, no operation of the following calculations gives an infinity: both grids and the coordinate conversions for panels of up to 2^20 pixels a side, the circular mask, the three grating formulas, Gaussian beams, rectangular and circular windows, products of fields, intensities and powers summed in any order over up to 2^22 pixels, and the levels, mirrors and efficiency of a hologram whose spectrum stays below 2^60 and whose beam stays above 2^-60. Their results are therefore those of the model without a largest number, on which the accuracy theorems rest.", "quantifier": "all sizes, positions, periods, angles, phases, amplitudes, fields and orders of summation within the stated powers of two", "why_tests_cant": "A test would have to look at every intermediate result for every size and every order of summation.", "anchors": ["pySLM2/slm.py:SLM._convert_pixel_index_to_dimensional_coordinate", "pySLM2/slm.py:SLM.image_plane_grid", "pySLM2/_lib.py:calculate_dmd_grating", "pySLM2/slm.py:DMD.calculate_dmd_state", "pySLM2/profile.py:HermiteGaussian._func", "pySLM2/simulation.py:SLMSimulation.get_output_power_in_fourier_plane"]}
{"id": "C147", "title": "A beam with no zero sample gives a usable hologram in single precision", "statement": "If no sample of the beam is zero in single precision, calculate_dmd_state returns a positive efficiency as it does in exact arithmetic. FALSE of the code: on a DLP9500 with a Gaussian beam of waist 1.21 mm to 1.25 mm every sample of the beam is positive in single precision, and without rounding the hologram of a spot has a positive efficiency. In single precision the quotient of the amplitudes at the corner exceeds the largest finite number, so the maximum by which all amplitudes are divided is an infinity: every amplitude becomes 0 or NaN, calculate_dmd_state returns the efficiency 0, and no mirror is on. No exception is raised.", "quantifier": "all wavelengths, focal lengths, periods, angles, signs, spots and factorisations of the transform; waists from 1.21 mm to 1.25 mm", "why_tests_cant": "Tests use flat inputs and never compare the efficiency with exact arithmetic.", "anchors": ["pySLM2/slm.py:DMD.calculate_dmd_state", "pySLM2/profile.py:HermiteGaussian._func", "pySLM2/_backend.py:Backend"]}
{"id": "C148", "title": "Devices forget what they showed before", "statement": "Once a call that writes every mirror (all on, all off, a grating, a hologram) has completed, a DMD is the same as any other DMD of the same settings on which that call completed, whatever either showed or went through before, and every later call has the same outcome on both; whether such a call succeeds does not depend on what is displayed. A circular patch does remember. An LCOS modulator is after any history as its last completed call leaves any modulator of the same geometry, a failing call leaves it as it was, and after reset_slm_state its state is a complex zero array of the panel's shape and the simulated output field equals the input field.", "quantifier": "all devices, histories of calls (successful or failing), arguments and random draws", "why_tests_cant": "Histories are unbounded; a test compares a few fixed sequences and cannot exclude a leftover of an older pattern or of a failed call.", "anchors": ["pySLM2/slm.py:DMD.set_dmd_state_on", "pySLM2/slm.py:DMD.set_dmd_state_off", "pySLM2/slm.py:DMD.set_dmd_grating_state", "pySLM2/slm.py:DMD.calculate_dmd_state", "pySLM2/slm.py:DMD.circular_patch", "pySLM2/slm.py:LCOS_SLM.reset_slm_state", "pySLM2/slm.py:LCOS_SLM.calculate_hologram"]}
{"id": "C149", "title": "How the methods take their arguments", "statement": "set_dmd_grating_state, circular_patch, calculate_dmd_state and calculate_hologram do the same whether an argument is given by position or by name and in whatever order the keywords are written. Given all parameters they compute with exactly the options their method has: r for \"random\"; N, s and signal_window for \"ifta\"; N for \"gs\"; N, signal_window and mixing_factor for \"mraf\"; options of other methods have no effect. Too many arguments, an argument given twice, and an option named like a parameter of the library function (p, theta, x, y, negative_order, ...) raise TypeError and leave the device as it was. Without further arguments the amplitude is 1, the phases are 0, the methods are \"random\" and \"gs\", and no window is used.", "quantifier": "all devices, positional and keyword arguments of any kind (also objects whose conversion fails), and random draws", "why_tests_cant": "The combinations of positions, names, orders, methods and options are too many to list.", "anchors": ["pySLM2/slm.py:DMD.set_dmd_grating_state", "pySLM2/slm.py:DMD.circular_patch", "pySLM2/slm.py:DMD.calculate_dmd_state", "pySLM2/slm.py:LCOS_SLM.calculate_hologram", "pySLM2/_lib.py:calculate_dmd_grating", "pySLM2/_lib.py:calculate_lcos_slm_hologram"]}
{"id": "C150", "title": "An option no method has is reported", "statement": "A keyword argument which no method has raises an exception. FALSE of the code: set_dmd_grating_state, circular_patch, calculate_dmd_state and calculate_hologram ignore it in silence, whatever its name and value. calculate_hologram(input, target, n=5) runs the default number of 200 iterations.", "quantifier": "all names that are neither a parameter nor an option, all values, all other arguments", "why_tests_cant": "A test would have to try a misspelt name, and see that nothing happens.", "anchors": ["pySLM2/slm.py:DMD.calculate_dmd_state", "pySLM2/slm.py:LCOS_SLM.calculate_hologram", "pySLM2/_lib.py:calculate_dmd_grating", "pySLM2/_lib.py:calculate_lcos_slm_hologram"]}
{"id": "C151", "title": "Only ratios of lengths matter", "statement": "Multiplying every length at the SLM (pixel size, grating period, lengths in profiles there) by c > 0 and every length at the image by b > 0, with wavelength times focal length multiplied by c b, changes nothing but the scale: the grids are multiplied by c and b, the patterns written by set_dmd_grating_state, circular_patch, calculate_dmd_state and calculate_hologram and the exceptions are the same, the returned efficiency factor is multiplied by c / b, first_order_origin by b; in a simulation the input and output fields are the same, the image field is multiplied by c / b, the three powers by c^2, and block_zeroth_order with its radius (or its default radius) multiplied by b blanks the same pixels. In particular: the units of length are free (b = c), wavelength and focal length matter only through their product (b = c = 1), and another focal length only magnifies the image (c = 1).", "quantifier": "all devices, factors, profiles built with any operators from any of the profile classes, arrays, methods, options, and random draws; simulations with any history", "why_tests_cant": "Tests fix one set of units and lengths; an absolute length hidden anywhere in the formulas shows only when all lengths change together.", "anchors": ["pySLM2/slm.py:DMD.calculate_dmd_state", "pySLM2/slm.py:DMD.set_dmd_grating_state", "pySLM2/slm.py:LCOS_SLM.calculate_hologram", "pySLM2/slm.py:SLM.fourier_plane_grid", "pySLM2/slm.py:SLM.image_plane_grid", "pySLM2/slm.py:DMD.first_order_origin", "pySLM2/simulation.py:SLMSimulation.propagate_to_image", "pySLM2/simulation.py:DMDSimulation.block_zeroth_order"]}
{"id": "C152", "title": "Gratings from stacks of arguments are made image by image; patches refuse stacks", "statement": "set_dmd_grating_state with arrays of any rank: whenever the call succeeds, every image of the resulting stack is the pattern that a call with that image's arguments (and its random draws) writes. The call succeeds if each of amp, phase_in, phase_out is a number, an image, one number per image (axes (K, 1, 1)) or a stack of images, and then the state has the shape of the stack; two stacks of different lengths raise and leave the state as it was. circular_patch with a stack as argument on a panel showing one pattern raises and leaves the panel unchanged; on a stack of patterns it raises unless the first two axes of the stack have the sizes of the panel, which never happens for a stack along one axis on a panel that is not square. For numbers and images both agree with the calls of the other properties.", "quantifier": "all devices, states, arguments of any rank and shape, methods other than ifta, radii, and random draws; all centres and diameters", "why_tests_cant": "Tests pass numbers and single images; whether stacks mix images, or leave a half-written panel behind when they are refused, depends on shapes without bound.", "anchors": ["pySLM2/slm.py:DMD.set_dmd_grating_state", "pySLM2/slm.py:DMD.circular_patch", "pySLM2/_lib.py:calculate_dmd_grating"]}
{"id": "C153", "title": "A patch stays inside its circle in every pattern of a stack", "statement": "When dmd_state is a stack of patterns (as set_dmd_grating_state leaves it after a stack of arguments) and circular_patch succeeds, only mirrors inside the circle change, in every pattern.", "quantifier": "all devices, stacks, arguments, centres and diameters", "why_tests_cant": "The mask has two axes and numpy applies it to the first two axes of the stack; on most panels this raises, and only on a square panel with as many patterns as rows it writes to wrong places in silence.", "anchors": ["pySLM2/slm.py:DMD.circular_patch", "pySLM2/slm.py:DMD.set_dmd_grating_state"]}
{"id": "C154", "title": "A set-up reflected in its diagonal gives the reflected result", "statement": "Exchange rows and columns of panel, arrays and random draws, reflect profiles, (x, y) to (-y, -x), and turn the grating from theta to -pi/2 - theta. Then all four grids are the reflected grids; set_dmd_grating_state, circular_patch (centre (j, i) for (i, j)), calculate_dmd_state and calculate_hologram write the reflected patterns with the same efficiency factor or the same exception; first_order_origin is reflected; in a simulation with the paddings exchanged all fields are reflected, block_zeroth_order blanks the reflected pixels, and the three powers are the same. The reflection of a profile is p.rescale_x(-1).rotate(-pi/2). A symmetric panel, beam and target give a symmetric pattern.", "quantifier": "all devices, methods, options, windows, arrays of any shape, profiles with a value everywhere, random draws, paddings and simulations with any history", "why_tests_cant": "Tests use one orientation; a row exchanged with a column, or a sign of one axis, goes unnoticed where panel, beam or target are symmetric.", "anchors": ["pySLM2/slm.py:DMD.calculate_dmd_state", "pySLM2/slm.py:DMD.set_dmd_grating_state", "pySLM2/slm.py:DMD.circular_patch", "pySLM2/slm.py:DMD.first_order_origin", "pySLM2/slm.py:LCOS_SLM.calculate_hologram", "pySLM2/slm.py:SLM.fourier_plane_grid", "pySLM2/slm.py:SLM.image_plane_grid", "pySLM2/simulation.py:SLMSimulation.propagate_to_image", "pySLM2/simulation.py:DMDSimulation.block_zeroth_order"]}
{"id": "C155", "title": "Undefined values in a beam, target or window darken the panel in silence", "statement": "calculate_dmd_state, full-size arrays: one NaN in target or window, or in the beam at a mirror where the windowed spectrum of the target is not 0, raises nothing: the efficiency returned is NaN and no mirror is on (method 'ideal': every level is NaN). If the beam is NaN only where that spectrum is 0, methods ideal, simple and random turn off those mirrors (ideal: NaN) and leave every other mirror and the efficiency as for any beam defined there; method 'ifta' with N >= 1 still darkens the whole panel, also for a NaN in its signal window. calculate_hologram with N >= 1 stores NaN phases everywhere for one NaN in beam, target or (MRAF) window; with N <= 0 it stores the random phases. With finite arrays these models give the results of the other properties.", "quantifier": "all devices with a grating period, all array sizes, contents, positions of the NaNs, methods, options and random draws; infinite samples are not covered", "why_tests_cant": "Camera images with dead pixels are not in the test data, nothing is raised, and an all-dark panel is a legal pattern.", "anchors": ["pySLM2/slm.py:DMD.calculate_dmd_state", "pySLM2/slm.py:DMD._calc_amp_phase", "pySLM2/_lib.py:_calculate_dmd_grating_ifta", "pySLM2/_lib.py:_calculate_lcos_slm_hologram_gs", "pySLM2/_lib.py:_calculate_lcos_slm_hologram_mraf", "pySLM2/slm.py:LCOS_SLM.calculate_hologram"]}
{"id": "C156", "title": "Missing samples of a phase map matter inside the aperture only", "statement": "A phase map with NaN samples outside the aperture: remove_trivial_phase leaves these NaN and gives at every other pixel the value it would give for any numbers put in their place; zernike_decomposition returns the same coefficients and the same reconstructed map, without NaN. One NaN strictly inside the aperture makes every coefficient NaN and every pixel of the map returned NaN, also those outside the aperture, and raises nothing. With no samples missing the model is that of the other properties.", "quantifier": "all map sizes, radii, contents, sets of missing samples, numbers of terms (up to the range of C15), with and without defocus, extrapolation and reconstruction", "why_tests_cant": "Measured maps have no data outside the pupil; tests use complete synthetic maps. A selection replaced by a product with the mask gives the same numbers on those.", "anchors": ["pySLM2/analysis.py:remove_trivial_phase", "pySLM2/analysis.py:zernike_decomposition"]}
{"id": "C157", "title": "Random thresholds with finitely many values bias the image by less than one step", "statement": "With thresholds that take the values 0, 1/K, ..., (K-1)/K with equal probability (TensorFlow: K = 2^23 in single, 2^52 in double precision), a mirror of duty cycle g is on for exactly g K rounded up of the K values: never too seldom, too often by less than 1/K, and with probability 1/K if 0 < g <= 1/K. The mean image field of set_dmd_grating_state and calculate_dmd_state with method 'random' is exactly the image of the grey pattern with g rounded up to the next multiple of 1/K, the mean intensity exceeds its intensity by the flat noise floor of these levels, and at every pixel the mean field differs from that for real-valued thresholds by at most pixel_size^2 / |wavelength focal_length| / K times the sum of |input|.", "quantifier": "all K, devices, beams, targets, windows, amplitudes, phases and steepnesses, every pixel of the padded image", "why_tests_cant": "A bias of 1e-7 per mirror is far below the noise of any number of draws a test can afford.", "anchors": ["pySLM2/slm.py:DMD.calculate_dmd_state", "pySLM2/slm.py:DMD.set_dmd_grating_state", "pySLM2/_lib.py:_calculate_dmd_grating_random", "pySLM2/simulation.py:SLMSimulation.propagate_to_image"]}
{"id": "C158", "title": "The mirrors of the board stand as computed", "statement": "Handing dmd.dmd_state to load_single, or a list of such patterns to load_multiple: a load that returned leaves mirror (i, j) of picture k exactly as element [i, j] of pattern k says, and exactly opposite when the controller was made with invert=True. On the Luxbeam this holds after every history of operations and hardware faults, for picture t mod N after t triggers; on the ALP after every history in which no initialize() failed, and a witness shows that a second initialize() failing half way leaves a controller that loads onto a board which no longer inverts. The patterns that can be handed over are those not computed by the 'ideal' method. The image made by the mirrors as they stand is the simulated image of the device, or on an inverting board the image of the fully switched-on panel minus it.", "quantifier": "all device histories, panels, patterns, lists of patterns, controller histories, fault behaviours, numbers of triggers, beams, paddings, pixels", "why_tests_cant": "needs the boards; tests of either module stop at the array handed over and cannot cover all histories of calls and faults", "anchors": ["pySLM2/util/controller.py:ALPController.load_single", "pySLM2/util/controller.py:ALPController.load_multiple", "pySLM2/util/controller.py:ALPController.initialize", "pySLM2/util/controller.py:LuxbeamController.load_single", "pySLM2/util/controller.py:LuxbeamController.load_multiple", "pySLM2/slm.py:DMD.calculate_dmd_state"]}
{"id": "C159", "title": "One sample of the beam that is not finite loses the whole image, also behind a mirror that is off", "statement": "propagate_to_image with a beam array containing an infinite or NaN sample returns normally on every DMD (binary or grey) and every LCOS. Every pixel of the image and all three powers, also the input power, are then not finite, even if the mirror at that sample is off. The stored input field is the beam and the stored output field the beam times the device, sample by sample, undefined only where a factor is. The next propagation does not depend on it.", "quantifier": "all devices, states, beams, positions of the bad sample, paddings, earlier results", "why_tests_cant": "the loss is total for every position and size and a test would need to compare every pixel for every device state", "anchors": ["pySLM2/simulation.py:SLMSimulation.propagate_to_image", "pySLM2/simulation.py:SLMSimulation.get_input_power", "pySLM2/simulation.py:SLMSimulation.get_image_plane_power"]}
{"id": "C160", "title": "Rounding costs the aperture analysis little, except for pixels on the rim", "statement": "Let remove_trivial_phase and zernike_decomposition be evaluated with rounding after every operation, whatever the order in which np.mean adds. The aperture selects exactly the pixels that are closer than the radius, without those whose squared distance equals the rounded square of the radius; no pixel is lost for radii that are short binary fractions, and the double nearest to the square root of 17 does lose one. If the modes are evaluated with an error of at most e, the remainder differs from the exact one by at most 2700 (with defocus 17600) times the largest of e, the unit roundoffs and the growth factor of the sum, relative to the largest phase; the mean of the remainder over the aperture obeys the same bound. In double precision that is 2^-32 of the largest phase. Each Zernike coefficient and the reconstruction obey explicit bounds too.", "quantifier": "all profiles, array sizes up to 2^20, radii, orders of summation, numbers of terms, roundings satisfying the standard model", "why_tests_cant": "tests compare a few decompositions with a tolerance; they cannot bound the error for all profiles or find the radii for which a pixel drops out", "anchors": ["pySLM2/analysis.py:remove_trivial_phase", "pySLM2/analysis.py:zernike_decomposition"]}
{"id": "C161", "title": "Zernike modes on pixel grids are accurate, so the removal of the trivial phase is", "statement": "Evaluate Zernike modes on the grids of analysis.py with rounding after every operation, Horner's rule for the radial polynomial and library functions of bounded error. At every pixel of the array that is inside the disc, or outside and not rounded onto its rim, the value differs from the exact mode by at most an explicit bound in the unit roundoff, the degree and the sum of the absolute coefficients; the exact mode never exceeds its normalization. For piston, tilts and defocus the bound is 500 units of roundoff. With these bounds the coefficients and the reconstruction of zernike_decomposition, for any number of terms, have the errors of C160. Together with C160 the whole of remove_trivial_phase in double precision is within 2^-29 of the largest phase of the exact result at those pixels. The exception is real: with the double nearest to the square root of 13 as radius, a pixel outside the disc is treated as inside.", "quantifier": "all valid index pairs, array sizes up to 2^20, radii, profiles, orders of summation, roundings satisfying the standard model, library functions of bounded error", "why_tests_cant": "tests sample a few modes at a few radii; they bound neither the error of all pixels nor reveal the pixels at which the cut-off flips", "anchors": ["pySLM2/profile.py:Zernike._func", "pySLM2/profile.py:Zernike.__init__", "pySLM2/analysis.py:remove_trivial_phase"]}
{"id": "C162", "title": "Hermite-Gauss modes of any order are accurate to an explicit bound", "statement": "Evaluate HermiteGaussian of any orders with every parameter rounded on construction, every operation rounded, Horner's rule for both polynomials and a tf.exp of bounded error. The result differs from the mode with the stored parameters by at most twice a first-order error, linear in the orders and in the squared distance in beam widths, times the size of the polynomials and the Gaussian factor, plus an underflow term. In double precision, for orders adding up to at most 20 and up to 20 beam widths from the centre, the first factor is at most 2^-37. Without rounding the formula is exactly the mode defined by derivatives of the Gaussian.", "quantifier": "all orders, parameters, points, roundings satisfying the standard model, exponentials of bounded error", "why_tests_cant": "tests evaluate a handful of low orders at a few points and cannot bound the error at all points and orders", "anchors": ["pySLM2/profile.py:HermiteGaussian._func", "pySLM2/profile.py:HermiteGaussian.__init__"]}
{"id": "C163", "title": "Super-Gaussian profiles are accurate to an explicit bound", "statement": "Evaluate SuperGaussian with every parameter rounded on construction, every operation rounded, and tf.pow and tf.exp of bounded error. If the stored power is at least 1, the result differs from the profile with the stored parameters by at most twice a first-order error, which grows with the power and with the exponent at the edge of the region, times the value of the profile, plus an underflow term. In double precision, within one beam width in x and y of the centre and for powers up to 10, the relative error is at most 2^-32; for powers up to 100 it is at most 2^-30 wherever the exponent is at most 1024, by a bound that depends on the exponent at the point only. For powers up to 1 the bound also depends on the exponent at the point only; in double precision it is 2^-38 for powers from 1/16 where the exponent is at most 1024. Together: for powers from 1/16 to 100 the double precision error is at most 2^-30 of the value plus an underflow term at every point of the plane. In single precision, the default, it is at most 2^-10 of the value plus an underflow term for powers from 1 to 10 where the exponent is at most 16, and at most 2^-7 at every point of the plane. Without rounding the formula is exactly the super-Gaussian, for every power.", "quantifier": "all parameters with a stored power and beam width in the stated ranges, all points, roundings satisfying the standard model, library functions of bounded error", "why_tests_cant": "tests evaluate single points with the default power; they bound the error of no region", "anchors": ["pySLM2/profile.py:SuperGaussian._func", "pySLM2/profile.py:SuperGaussian.__init__"]}
{"id": "C164", "title": "Laguerre-Gauss modes are accurate to an explicit bound", "statement": "Evaluate LaguerreGaussian with every parameter rounded on construction, the stored polynomial coefficients and sqrt(2) off by a few units in the last place, every operation rounded, and tf.exp, tf.pow, tf.math.atan2 and the complex exponential of bounded error. Up to Q beam widths from the centre, the real and the imaginary part differ from those of the Laguerre-Gauss mode with the stored parameters, taken at the rounded differences between the point and the stored centre, by an explicit bound. Its main part is twice a first-order error, linear in |l|, p and Q^2, times the size of the polynomial factors times the Gaussian factor; the rest comes from the phase l*phi and from underflow. In double precision, for |l| + p up to 20 and up to 20 beam widths, the bound is 2^-37 times that size. Without rounding the formula is exactly the mode.", "quantifier": "all azimuthal and radial orders, parameters and points, roundings satisfying the standard model, library functions of bounded error", "why_tests_cant": "tests evaluate single points of low orders; they bound the error of no region and no order", "anchors": ["pySLM2/profile.py:LaguerreGaussian._func", "pySLM2/profile.py:LaguerreGaussian.__init__"]}
{"id": "C165", "title": "Sums, products, quotients, powers, rotations, shifts and rescalings of profiles propagate explicit error bounds", "statement": "Build any real profile from constants, modes and windows with +, -, *, /, ** (non-negative integer exponents), rotate, shift, rescale_x and rescale_y, and call it with every operation rounded, parameters and coordinates rounded to the backend's precision, and tf.cos, tf.sin and tf.pow of bounded error. From bounds for the modes and windows at perturbed coordinates, a bound for the whole expression is computed by recursion: errors add in sums, combine with the sizes in products, are divided by the distance of the divisor from 0 in quotients, and the coordinate errors grow by explicit amounts in the transformations. The call returns a number, and it differs from the exact value by at most this bound; the parts of the complex form exp(1j*p) differ by at most this bound plus the error of the cosine. Accuracy at a point plus a Lipschitz condition give the bound for a mode; Gaussian beams satisfy it, and in double precision a unit Gaussian beam moved by up to 4 beam widths is accurate to 2^-39. Without rounding the values are exactly those of the exact model.", "quantifier": "all expressions whose powers have non-negative integer exponents, all points, roundings satisfying the standard model, library functions of bounded error", "why_tests_cant": "tests combine two profiles and compare at sample points with a tolerance; they bound no error for all expressions", "anchors": ["pySLM2/profile.py:FunctionProfile.__call__", "pySLM2/profile.py:FunctionProfile._make_attribute_func", "pySLM2/profile.py:FunctionProfile.rotate", "pySLM2/profile.py:FunctionProfile.shift", "pySLM2/profile.py:FunctionProfile.rescale_x", "pySLM2/profile.py:FunctionProfile.as_complex_profile"]}
{"id": "C166", "title": "Infinite or undefined amplitudes affect their own mirrors only except with 'ifta', and differently for each method", "statement": "set_dmd_grating_state with an amplitude (number or full-size array) containing infinities or NaN succeeds. With 'simple' a mirror of infinite amplitude is on unless it lies exactly in a trough of the carrier; minus infinity and NaN give off. With 'ideal' the grey level is infinite off the troughs and NaN in them. With 'random' a mirror whose amplitude is infinite, NaN or outside [-1, 1] is off whatever is drawn. With 'ifta' one NaN switches all mirrors off. circular_patch on a panel of binary mirrors does the same with 'simple'; with 'ideal' every infinite or NaN amplitude inside the disc switches its mirror on. Except with 'ifta', mirrors with finite amplitude follow the usual rule whatever the others hold; for finite amplitudes the call is the usual one.", "quantifier": "all devices, amplitudes with any mixture of finite, infinite and NaN values, finite phases, all thresholds", "why_tests_cant": "tests pass finite amplitudes between 0 and 1 only", "anchors": ["pySLM2/slm.py:DMD.set_dmd_grating_state", "pySLM2/slm.py:DMD.circular_patch", "pySLM2/slm.py:SLM.profile_to_tensor", "pySLM2/_lib.py:_calculate_dmd_grating_ideal", "pySLM2/_lib.py:_calculate_dmd_grating_simple", "pySLM2/_lib.py:_calculate_dmd_grating_random"]}
{"id": "C167", "title": "A missing sample of a phase map costs its own mirror only, with 'ifta' all mirrors", "statement": "set_dmd_grating_state with phase maps holding NaN or infinite samples, methods ideal, simple and random: the call succeeds exactly when it does with these samples filled in, every mirror whose two phases are defined is set as with any filling, and every other mirror is off (grey level NaN for 'ideal'). circular_patch does the same inside its disc and leaves the rest, except that 'ideal' on a panel of binary mirrors switches the mirrors with missing samples on. With 'ifta' one missing sample switches all mirrors off.", "quantifier": "all devices, phase maps (numbers or arrays) with any pattern of missing samples, any amplitudes, all thresholds", "why_tests_cant": "tests use phase maps that are defined everywhere", "anchors": ["pySLM2/slm.py:DMD.set_dmd_grating_state", "pySLM2/slm.py:DMD.circular_patch", "pySLM2/_lib.py:_calculate_dmd_grating_ideal", "pySLM2/_lib.py:_calculate_dmd_grating_simple", "pySLM2/_lib.py:_calculate_dmd_grating_random"]}
