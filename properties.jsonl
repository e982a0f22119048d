{"id": "C01", "title": "Quaternion to DCM always yields a proper rotation", "statement": "For every non-zero quaternion (unit or not) computeDcmFromQuaternion returns true and the 3x3 output R satisfies R*R^T = I, R^T*R = I and det R = +1. For the zero quaternion no finite matrix is produced.", "quantifier": "all 4-vectors of reals", "why_tests_cant": "The input space is a continuum; a test compares a handful of points to a tolerance and cannot exclude a wrong sign or a missed branch elsewhere.", "anchors": ["src/util/Attitude.cpp:computeDcmFromQuaternion"]}
{"id": "C02", "title": "Quaternion to DCM is insensitive to scale and sign, and to nothing else", "statement": "For non-zero p, q: computeDcmFromQuaternion gives the same matrix for p and q if and only if p = k*q for some real k. In particular q and -q, and q and q/|q|, give the same matrix.", "quantifier": "all pairs of non-zero quaternions", "why_tests_cant": "The input space is a continuum; a test compares a handful of points to a tolerance and cannot exclude a wrong sign or a missed branch elsewhere.", "anchors": ["src/util/Attitude.cpp:computeDcmFromQuaternion"]}
{"id": "C03", "title": "Quaternion product and DCM product agree", "statement": "If r is obtained by multiplying the 4x4 matrix returned by buildQuaternionEquivalent(p) with q, then computeDcmFromQuaternion(r) equals computeDcmFromQuaternion(q) * computeDcmFromQuaternion(p).", "quantifier": "all pairs of non-zero quaternions", "why_tests_cant": "The input space is a continuum; a test compares a handful of points to a tolerance and cannot exclude a wrong sign or a missed branch elsewhere.", "anchors": ["src/util/Attitude.cpp:buildQuaternionEquivalent", "src/util/Attitude.cpp:computeDcmFromQuaternion"]}
{"id": "C04", "title": "DCM to quaternion inverts quaternion to DCM", "statement": "For every proper rotation matrix R, computeQuaternionFromDcm returns a unit quaternion q with computeDcmFromQuaternion(q) = R; composed the other way it returns +q or -q for every unit q. (The code violates this for some rotations, e.g. a 90 degree turn about the x axis: two squared components tie for largest and the fall-through branch divides by zero.)", "quantifier": "all rotation matrices / all unit quaternions", "why_tests_cant": "The failing rotations form a measure-zero set that random tests never hit, and the passing ones are a continuum.", "anchors": ["src/util/Attitude.cpp:computeQuaternionFromDcm"]}
{"id": "C05", "title": "Rotation vector to quaternion", "statement": "For every non-zero rotation vector phi, computeQuaternionFromRotationVec returns a unit quaternion whose DCM fixes phi and is the coordinate-frame rotation by angle |phi| about phi (Rodrigues formula, transposed). For phi = 0 the identity quaternion is expected; the code divides by |phi| = 0 instead.", "quantifier": "all 3-vectors", "why_tests_cant": "The input space is a continuum; a test compares a handful of points to a tolerance and cannot exclude a wrong sign or a missed branch elsewhere.", "anchors": ["src/util/Attitude.cpp:computeQuaternionFromRotationVec"]}
{"id": "C06", "title": "Rotation vector round trip", "statement": "For every phi with 2*asin(1e-6) < |phi| <= pi, converting phi to a quaternion and back gives phi again. (The code gives -phi: the two conversions use opposite signs.)", "quantifier": "all rotation vectors with norm in (2 asin 1e-6, pi]", "why_tests_cant": "The input space is a continuum; a test compares a handful of points to a tolerance and cannot exclude a wrong sign or a missed branch elsewhere.", "anchors": ["src/util/Attitude.cpp:computeQuaternionFromRotationVec", "src/util/Attitude.cpp:computeRotationVecFromQuaternion"]}
{"id": "C07", "title": "Quaternion to rotation vector is well defined on rotations", "statement": "For every unit quaternion computeRotationVecFromQuaternion returns a vector of norm at most pi; q and -q give the same vector unless the scalar part is 0; the vector part shorter than 1e-6 gives exactly zero; a vector part longer than 1 produces no finite result.", "quantifier": "all quaternions", "why_tests_cant": "The input space is a continuum; a test compares a handful of points to a tolerance and cannot exclude a wrong sign or a missed branch elsewhere.", "anchors": ["src/util/Attitude.cpp:computeRotationVecFromQuaternion"]}
{"id": "C08", "title": "Quaternion-equivalent matrix represents the Hamilton product", "statement": "For all p, q: buildQuaternionEquivalent(p)*q is the Hamilton product p.q; the matrix is multiplicative (Q(p.q) = Q(p)Q(q)) and satisfies Q(p)^T Q(p) = |p|^2 I.", "quantifier": "all pairs of quaternions", "why_tests_cant": "The input space is a continuum; a test compares a handful of points to a tolerance and cannot exclude a wrong sign or a missed branch elsewhere.", "anchors": ["src/util/Attitude.cpp:buildQuaternionEquivalent"]}
{"id": "C09", "title": "Euler angles to DCM: a rotation, with the documented direction", "statement": "For all angles euler2Dcm returns a proper rotation. Documented as the body-to-NED matrix: applied to the body x axis it should give (cos p cos h, cos p sin h, -sin p) for roll r, pitch p, heading h. (The code returns the transpose, the NED-to-body matrix.)", "quantifier": "all triples of angles", "why_tests_cant": "The input space is a continuum; a test compares a handful of points to a tolerance and cannot exclude a wrong sign or a missed branch elsewhere.", "anchors": ["src/util/Attitude.cpp:euler2Dcm"]}
{"id": "C10", "title": "Euler angle round trip", "statement": "dcm2Euler(euler2Dcm(r,p,h)) returns true and gives back (r,p,h) for every roll and pitch in (-pi/2,pi/2) and heading in [0,2pi) away from the declared singularities. (True for headings in [0,pi); headings in (pi,2pi) come back reduced by pi, i.e. reversed.)", "quantifier": "all angle triples in the stated ranges", "why_tests_cant": "The input space is a continuum; a test compares a handful of points to a tolerance and cannot exclude a wrong sign or a missed branch elsewhere.", "anchors": ["src/util/Attitude.cpp:dcm2Euler", "src/util/Attitude.cpp:euler2Dcm"]}
{"id": "C11", "title": "Attitude functions reject mis-sized arguments and touch nothing", "statement": "Each Attitude function taking dynamically sized arguments returns true exactly when all sizes are right, and when it returns false its output argument is unchanged.", "quantifier": "all argument sizes and contents", "why_tests_cant": "Sizes are unbounded; tests try one or two wrong ones.", "anchors": ["src/util/Attitude.cpp"]}
{"id": "C12", "title": "skewSymmetric is the cross product matrix", "statement": "For all v, w: skewSymmetric(v)*w = v x w; the result is antisymmetric and is the only matrix with that property.", "quantifier": "all pairs of 3-vectors", "why_tests_cant": "The input space is a continuum; a test compares a handful of points to a tolerance and cannot exclude a wrong sign or a missed branch elsewhere.", "anchors": ["src/util/NavUtils.cpp:skewSymmetric"]}
{"id": "C13", "title": "Strapdown position rates are the true geodetic kinematics", "statement": "For every state with |lat| < pi/2 off the singular altitudes, the position rates used by strapdownRk4 are exactly those for which the ECEF position computed by lla2Ecef moves with velocity RN2E*vNed, RN2E being computeRNed2Ecef's matrix.", "quantifier": "all states (lat, lon, h, vN, vE, vD)", "why_tests_cant": "The input space is a continuum; a test compares a handful of points to a tolerance and cannot exclude a wrong sign or a missed branch elsewhere.", "anchors": ["src/util/NavUtils.cpp:strapdownDynamics", "src/util/Rotations.cpp:lla2Ecef", "src/util/Rotations.cpp:computeRNed2Ecef"]}
{"id": "C14", "title": "Strapdown velocity rates are Newton's law in the rotating Earth frame", "statement": "For every state the velocity rates are a + g - (2*w_ie + w_en) x v, with w_ie the Earth rate resolved in NED and w_en the rate of the NED frame obtained by differentiating RN2E; hence Coriolis and transport terms do no work: v . dv/dt = v . (a + g).", "quantifier": "all states, specific forces and gravity vectors", "why_tests_cant": "The input space is a continuum; a test compares a handful of points to a tolerance and cannot exclude a wrong sign or a missed branch elsewhere.", "anchors": ["src/util/NavUtils.cpp:strapdownDynamics"]}
{"id": "C15", "title": "strapdownRk4 is the classical Runge-Kutta step and is longitude-equivariant", "statement": "For every input of size 6, strapdownRk4 returns y + dt/6 (k1+2k2+2k3+k4) with the four classical stage slopes; shifting the longitude by any constant shifts the output longitude by that constant and changes nothing else; reflecting north-south reflects the result.", "quantifier": "all states, steps, increments and longitude shifts", "why_tests_cant": "The input space is a continuum; a test compares a handful of points to a tolerance and cannot exclude a wrong sign or a missed branch elsewhere.", "anchors": ["src/util/NavUtils.cpp:strapdownRk4"]}
{"id": "C16", "title": "strapdownRk4 guards and definedness", "statement": "strapdownRk4 returns true exactly when both vectors have size 6, leaves yk untouched otherwise, and produces no finite result when dt = 0.", "quantifier": "all sizes and steps", "why_tests_cant": "Sizes unbounded; dt=0 needs a reachability argument through Strapdown::integrate.", "anchors": ["src/util/NavUtils.cpp:strapdownRk4"]}
{"id": "C17", "title": "simpleGravity is an inverse-square central field", "statement": "For every non-zero position the output is antiparallel to it with magnitude G*mE/|r|^2; scaling the position by k>0 scales it by 1/k^2; rotating the position rotates it. At the origin no finite vector is produced.", "quantifier": "all positions", "why_tests_cant": "The input space is a continuum; a test compares a handful of points to a tolerance and cannot exclude a wrong sign or a missed branch elsewhere.", "anchors": ["src/util/Gravity.cpp:simpleGravity"]}
{"id": "C18", "title": "Normal gravity on the ellipsoid is bounded and monotone in latitude", "statement": "At h = 0 gravityNed's down component equals gEq at the equator and gPole at the poles, lies between them everywhere, and strictly increases with |lat| on [0,pi/2].", "quantifier": "all latitudes", "why_tests_cant": "The input space is a continuum; a test compares a handful of points to a tolerance and cannot exclude a wrong sign or a missed branch elsewhere.", "anchors": ["src/util/Gravity.cpp:gravityNed"]}
{"id": "C19", "title": "gravityNed symmetries", "statement": "For all latitudes and heights: the east component is 0; the down component is even and the north component odd in latitude; the north component vanishes on the ellipsoid, at the equator and at the poles and otherwise points towards the equator for h > 0.", "quantifier": "all latitudes and heights", "why_tests_cant": "The input space is a continuum; a test compares a handful of points to a tolerance and cannot exclude a wrong sign or a missed branch elsewhere.", "anchors": ["src/util/Gravity.cpp:gravityNed"]}
{"id": "C20", "title": "gravityNed down component is positive and decreases with height", "statement": "The down component is positive for every latitude and every height, and strictly decreasing in height on [0, 2.1e6 m].", "quantifier": "all latitudes, all heights", "why_tests_cant": "The input space is a continuum; a test compares a handful of points to a tolerance and cannot exclude a wrong sign or a missed branch elsewhere.", "anchors": ["src/util/Gravity.cpp:gravityNed"]}
{"id": "C21", "title": "ECEF/NED matrices are mutually inverse rotations onto north, east, down", "statement": "For in-range inputs computeREcef2Ned and computeRNed2Ecef return proper rotations that are transposes (inverses) of each other, and the rows of the former are the unit north, east and down directions of the ellipsoid at that point (normalised derivatives of lla2Ecef).", "quantifier": "all latitudes and longitudes in range", "why_tests_cant": "The input space is a continuum; a test compares a handful of points to a tolerance and cannot exclude a wrong sign or a missed branch elsewhere.", "anchors": ["src/util/Rotations.cpp:computeREcef2Ned", "src/util/Rotations.cpp:computeRNed2Ecef"]}
{"id": "C22", "title": "Latitude/longitude range guards", "statement": "computeREcef2Ned, computeRNed2Ecef and lla2Ecef return true exactly when |lat| <= pi/2 and |lon| <= pi, and leave the output unchanged when they return false. Over IEEE doubles a NaN latitude or longitude should be rejected too. (The code accepts NaN.)", "quantifier": "all doubles including NaN and infinities", "why_tests_cant": "The set of doubles cannot be enumerated; NaN is not in any test.", "anchors": ["src/util/Rotations.cpp:computeREcef2Ned", "src/util/Rotations.cpp:computeRNed2Ecef", "src/util/Rotations.cpp:lla2Ecef"]}
{"id": "C23", "title": "lla2Ecef places the point at the given height on the ellipsoid normal", "statement": "For in-range inputs the result is S + alt*n, where S lies on the ellipsoid with semi-axes a and a(1-f) and n is the outward unit normal there, and lat, lon are the geodetic latitude and longitude of that normal.", "quantifier": "all latitudes, longitudes, altitudes", "why_tests_cant": "The input space is a continuum; a test compares a handful of points to a tolerance and cannot exclude a wrong sign or a missed branch elsewhere.", "anchors": ["src/util/Rotations.cpp:lla2Ecef"]}
{"id": "C24", "title": "lla2Ecef is injective", "statement": "Two in-range inputs with altitudes above -a(1-f)^2 (the smallest meridian radius of curvature), latitudes in (-pi/2,pi/2) and longitudes in (-pi,pi] that map to the same ECEF position are equal.", "quantifier": "all pairs of geodetic positions", "why_tests_cant": "Quantifies over pairs of points of a continuum.", "anchors": ["src/util/Rotations.cpp:lla2Ecef"]}
{"id": "C25", "title": "ecef2Lla output is accepted downstream", "statement": "For every ECEF position, longitude is in [-pi,pi]; for every position whose distance from the Earth's centre exceeds 43 km and which is off the polar axis, latitude is in (-pi/2,pi/2), so lla2Ecef and the DCM functions accept the output. (Closer to the centre the latitude leaves the range.)", "quantifier": "all ECEF positions", "why_tests_cant": "The input space is a continuum; a test compares a handful of points to a tolerance and cannot exclude a wrong sign or a missed branch elsewhere.", "anchors": ["src/util/Rotations.cpp:ecef2Lla"]}
{"id": "C26", "title": "ecef2Lla then lla2Ecef round trip", "statement": "For every position off the polar axis whose latitude is in range, converting to geodetic and back recovers x and y exactly; and lla2Ecef then ecef2Lla recovers the longitude exactly, and, from 100 km below the ellipsoid upwards, the latitude to 2e-7 rad and the altitude to 1 m (1e-10 rad and 1 mm for altitudes within 100 km of the ellipsoid).", "quantifier": "all ECEF positions / all geodetic positions", "why_tests_cant": "The input space is a continuum; a test compares a handful of points to a tolerance and cannot exclude a wrong sign or a missed branch elsewhere.", "anchors": ["src/util/Rotations.cpp:ecef2Lla", "src/util/Rotations.cpp:lla2Ecef"]}
{"id": "C27", "title": "ecef2Lla at the poles", "statement": "For positions on the polar axis ecef2Lla should return the altitude |z| - b. (The code divides p = 0 by cos(lat): by 0 in exact arithmetic, and with a rounded cosine it returns an altitude below -6378 km.)", "quantifier": "all positions (0,0,z)", "why_tests_cant": "Measure-zero set of inputs.", "anchors": ["src/util/Rotations.cpp:ecef2Lla"]}
{"id": "C28", "title": "Unix timestamp to civil date is correct", "statement": "For every timestamp 0 <= t < 2^53 microseconds, unixTimestampToDateVec yields the proleptic Gregorian UTC date and time of day of floor(t/10^6) seconds after 1970-01-01, with valid month, day, hour, minute and second fields, without undefined behaviour. (On 31 December of every year the code reads one element past the end of the month table.)", "quantifier": "all timestamps in range, all years including leap and century years", "why_tests_cant": "About 9*10^15 timestamps; the failing day is one in 365 and a test needs it plus a sanitizer.", "anchors": ["src/util/Rotations.cpp:unixTimestampToDateVec"]}
{"id": "C29", "title": "No timestamp is rounded up to the next second", "statement": "The seconds field is floor(t/10^6) for every non-negative int64 timestamp. (False from 2^53 microseconds on, where the int64-to-double conversion rounds.)", "quantifier": "all non-negative int64 timestamps", "why_tests_cant": "2^63 inputs; failing ones are isolated microseconds.", "anchors": ["src/util/Rotations.cpp:unixTimestampToDateVec"]}
{"id": "C30", "title": "Timestamps before 1970", "statement": "For every negative timestamp unixTimestampToDateVec yields a valid date. (The code yields negative time-of-day fields, or indexes the month table at -1.)", "quantifier": "all negative int64 timestamps", "why_tests_cant": "2^63 inputs and a memory-safety outcome that a test does not observe.", "anchors": ["src/util/Rotations.cpp:unixTimestampToDateVec"]}
{"id": "C31", "title": "unixTimestampToDateVec output shape", "statement": "The call leaves dateVec with exactly the six new fields, whatever it held before. (The code appends: a re-used vector grows and is then rejected by computeRJ2k2Ecef.)", "quantifier": "all prior contents of the vector and all call histories", "why_tests_cant": "Depends on call history.", "anchors": ["src/util/Rotations.cpp:unixTimestampToDateVec", "src/util/Rotations.cpp:computeRJ2k2Ecef"]}
{"id": "C32", "title": "Civil date to Modified Julian Date", "statement": "For every valid civil date from 1582-10-15 on (Gregorian) and every valid Julian-calendar date before 1582-10-05, the conversion used by the J2000 rotations gives the true Modified Julian Date: consecutive calendar days differ by exactly 1, and 1858-11-17 is 0; the time of day adds its exact fraction.", "quantifier": "all civil dates and times", "why_tests_cant": "Unbounded range of years; leap and century rules.", "anchors": ["src/util/Rotations.cpp:convertDatevec2Mjd"]}
{"id": "C33", "title": "Date vector validation", "statement": "A date vector is rejected when a field is out of its calendar range and accepted otherwise: every civil date-time is accepted. (Seconds strictly between 59 and 60 are rejected; month 0 and day 0 are accepted.)", "quantifier": "all 6-element vectors", "why_tests_cant": "The input space is a continuum; a test compares a handful of points to a tolerance and cannot exclude a wrong sign or a missed branch elsewhere.", "anchors": ["src/util/Rotations.cpp:convertDatevec2Mjd", "src/util/Rotations.cpp:computeRJ2k2Ecef"]}
{"id": "C34", "title": "MJD day lookup is robust to double rounding", "statement": "Evaluating the conversion in IEEE double arithmetic, the integer part of the resulting MJD is the MJD of the civil day for every valid date-time with |year| <= 10^8, so the Earth-orientation row looked up is the right one.", "quantifier": "all valid civil date-times in range, all roundings performed by the code", "why_tests_cant": "Rounding at every operation over a huge domain.", "anchors": ["src/util/Rotations.cpp:convertDatevec2Mjd", "src/util/Rotations.cpp:getCurrentEop"]}
{"id": "C35", "title": "Timestamp to MJD pipeline", "statement": "For timestamps 0 <= t < 2^53 us not on 31 December, converting to a date vector and then to MJD gives 40587 + floor(t/10^6)/86400.", "quantifier": "all timestamps in range", "why_tests_cant": "See C28.", "anchors": ["src/util/Rotations.cpp:unixTimestampToDateVec", "src/util/Rotations.cpp:convertDatevec2Mjd"]}
{"id": "C36", "title": "Loading Earth-orientation data: success replaces, failure preserves", "statement": "After any history of getEops calls the table in use is that of the last successful call; a call on a missing file or one with an unparsable number leaves the table and the ready flag as they were; a call on an existing file returns true and loads exactly the file's rows. (For a readable but not writable file the code returns true and loads an empty table.)", "quantifier": "all call histories, all file systems", "why_tests_cant": "Histories are unbounded.", "anchors": ["src/util/Rotations.cpp:getEops"]}
{"id": "C37", "title": "Rectangular files give in-bounds lookups", "statement": "If every data line of the file has at least 11 comma-separated fields, all columns have equal length and no later lookup reads out of bounds; with a short line the lookup may read out of bounds or use another row's value.", "quantifier": "all files, all dates", "why_tests_cant": "All file contents; out-of-bounds reads are invisible to a passing test.", "anchors": ["src/util/Rotations.cpp:getEops", "src/util/Rotations.cpp:getCurrentEop"]}
{"id": "C38", "title": "Earth-orientation lookup and interpolation", "statement": "For a loaded rectangular table: a date whose day is not in the table (or no table) is rejected with the outputs untouched; at midnight the row's own values are returned; between rows each value lies between the two rows' values and moves linearly; in the last row's day the last row's values are used; TAI-UTC is never interpolated.", "quantifier": "all tables, all dates", "why_tests_cant": "All tables and a continuum of times.", "anchors": ["src/util/Rotations.cpp:getCurrentEop"]}
{"id": "C39", "title": "The eopFile argument of the J2000 functions has no effect", "statement": "computeRJ2k2Ecef and computeREcef2J2k depend only on the date and the loaded table.", "quantifier": "all strings, dates, histories", "why_tests_cant": "Quantifies over all pairs of strings.", "anchors": ["src/util/Rotations.cpp:computeRJ2k2Ecef", "src/util/Rotations.cpp:computeREcef2J2k"]}
{"id": "C40", "title": "J2000/ECEF matrices are mutually inverse proper rotations", "statement": "Whenever they return true, the matrices of computeRJ2k2Ecef and computeREcef2J2k for the same date are proper rotations and transposes of each other; the two functions accept and reject the same inputs; on rejection the output is untouched.", "quantifier": "all dates, tables", "why_tests_cant": "The input space is a continuum; a test compares a handful of points to a tolerance and cannot exclude a wrong sign or a missed branch elsewhere.", "anchors": ["src/util/Rotations.cpp:computeRJ2k2Ecef", "src/util/Rotations.cpp:computeREcef2J2k"]}
{"id": "C41", "title": "Nutation angles are bounded", "statement": "For every date the nutation in longitude and obliquity are bounded by the sums of the series' amplitudes (19.44 and 10.08 arcseconds at J2000), and the five fundamental arguments are reduced to [0, one revolution).", "quantifier": "all dates", "why_tests_cant": "The input space is a continuum; a test compares a handful of points to a tolerance and cannot exclude a wrong sign or a missed branch elsewhere.", "anchors": ["src/util/Rotations.cpp:nutationAngles"]}
{"id": "C42", "title": "Greenwich hour angle", "statement": "The hour-angle matrix is the rotation about z by the apparent sidereal time; mean sidereal time is in [0,2pi) and advances by 1.00273790935 revolutions per UT1 day within a day.", "quantifier": "all dates", "why_tests_cant": "The input space is a continuum; a test compares a handful of points to a tolerance and cannot exclude a wrong sign or a missed branch elsewhere.", "anchors": ["src/util/Rotations.cpp:computeGreenwichHourAngle"]}
{"id": "C43", "title": "Filter functions reject mis-sized arguments and touch nothing", "statement": "Each of the four filter functions returns true exactly when every argument has the documented size, and on false leaves both outputs unchanged.", "quantifier": "all sizes", "why_tests_cant": "Sizes are unbounded.", "anchors": ["src/filter/KalmanFilter.cpp"]}
{"id": "C44", "title": "Prediction propagates mean and covariance and keeps the covariance valid", "statement": "filterPredict returns Phi*x and Phi*P*Phi^T+Q; if P and Q are symmetric positive semidefinite so is the result, and it dominates Q.", "quantifier": "all dimensions n and all matrices", "why_tests_cant": "Every dimension and every matrix.", "anchors": ["src/filter/KalmanFilter.cpp:filterPredict"]}
{"id": "C45", "title": "Measurement update keeps the covariance valid", "statement": "If P and R are symmetric PSD and the innovation covariance is invertible, filterUpdate's covariance is symmetric PSD, and equals (I-KH)P.", "quantifier": "all dimensions and matrices", "why_tests_cant": "Every dimension and every matrix.", "anchors": ["src/filter/KalmanFilter.cpp:filterUpdate"]}
{"id": "C46", "title": "Measurement update is optimal and never loses information", "statement": "Among all gains L, the estimate's error covariance (I-LH)P(I-LH)^T+L R L^T is minimised, in the Loewner order, by the returned covariance; in particular the returned covariance is at most P.", "quantifier": "all gains, all dimensions", "why_tests_cant": "Quantifies over all competing estimators.", "anchors": ["src/filter/KalmanFilter.cpp:filterUpdate"]}
{"id": "C47", "title": "Update equals Bayesian information fusion", "statement": "For invertible P and R: Pkp1^-1 = P^-1 + H^T R^-1 H and Pkp1^-1 xkp1 = P^-1 x + H^T R^-1 z.", "quantifier": "all dimensions and matrices", "why_tests_cant": "Every dimension and every matrix.", "anchors": ["src/filter/KalmanFilter.cpp:filterUpdate"]}
{"id": "C48", "title": "Sequential and batch processing agree", "statement": "Processing two measurements with independent noises one after the other gives the same state and covariance as processing them stacked, in either order.", "quantifier": "all dimensions, measurements", "why_tests_cant": "Every dimension and every matrix.", "anchors": ["src/filter/KalmanFilter.cpp:filterUpdate"]}
{"id": "C49", "title": "A true return means a finite estimate", "statement": "filterUpdate should not return true with a meaningless estimate; it does when H P H^T + R is singular (e.g. P = 0, R = 0). For P PSD and R positive definite this cannot happen.", "quantifier": "all P, R, H", "why_tests_cant": "Every dimension and every matrix.", "anchors": ["src/filter/KalmanFilter.cpp:filterUpdate"]}
{"id": "C50", "title": "Any filter history keeps a valid covariance", "statement": "Starting from a symmetric PSD covariance, after any sequence of filterPredict (PSD Q) and filterUpdate (positive definite R) calls, of any length and with any measurements, the covariance is symmetric PSD and every call succeeds.", "quantifier": "all histories", "why_tests_cant": "Histories are unbounded.", "anchors": ["src/filter/KalmanFilter.cpp:filterPredict", "src/filter/KalmanFilter.cpp:filterUpdate"]}
{"id": "C51", "title": "UKF prediction", "statement": "filterUkfPredict returns the weighted mean and Q plus the weighted scatter; the covariance is symmetric for symmetric Q, and PSD for PSD Q and non-negative weights. With a negative centre weight (standard choice) it may be indefinite.", "quantifier": "all weights, sigma sets, dimensions", "why_tests_cant": "Every dimension and every matrix.", "anchors": ["src/filter/KalmanFilter.cpp:filterUkfPredict"]}
{"id": "C52", "title": "UKF update agrees with the linear filter on linear measurements", "statement": "If the sigma points have weighted mean x and weighted covariance P, the weights sum to 1 and zi = H*yi, filterUkfUpdate returns the same state and covariance as filterUpdate(x,P,z,H,R). With non-negative weights and Pk dominating the scatter, the result is PSD and at most Pk.", "quantifier": "all sigma sets, dimensions", "why_tests_cant": "Every dimension and every matrix.", "anchors": ["src/filter/KalmanFilter.cpp:filterUkfUpdate"]}
{"id": "C53", "title": "Filters may be run in place", "statement": "Passing the same object as input and output (xk/xkp1, Pk/Pkp1) gives the same results as distinct objects.", "quantifier": "all aliasing patterns and values", "why_tests_cant": "Aliasing patterns times a continuum of values.", "anchors": ["src/filter/KalmanFilter.cpp"]}
{"id": "C54", "title": "Noise-free measurement is honoured exactly", "statement": "With R = 0 and invertible H P H^T, H*xkp1 = z and H*Pkp1 = 0.", "quantifier": "all dimensions and matrices", "why_tests_cant": "Every dimension and every matrix.", "anchors": ["src/filter/KalmanFilter.cpp:filterUpdate"]}
{"id": "C55", "title": "Unweighted linear least squares is optimal", "statement": "The returned x minimises |y - Hx|^2 over all x, J is half the minimum; when H has full column rank the minimiser is unique.", "quantifier": "all sizes, all H, y", "why_tests_cant": "Minimality quantifies over all competing x.", "anchors": ["src/filter/BatchLeastSquares.cpp:UnweightedLinearLeastSquares"]}
{"id": "C56", "title": "Weighted linear least squares is optimal and reports its cost", "statement": "For symmetric positive definite W, the returned x minimises (y-Hx)^T W (y-Hx), and J is half the attained weighted cost. (J is the unweighted residual in the code.)", "quantifier": "all sizes, all H, W, y", "why_tests_cant": "Minimality quantifies over all competing x.", "anchors": ["src/filter/BatchLeastSquares.cpp:WeightedLinearLeastSquares", "src/filter/BatchLeastSquares.cpp:ComputeCostFunction"]}
{"id": "C57", "title": "Weighted least squares invariances", "statement": "W = c*I (c>0) gives the unweighted estimate; scaling W by c>0 does not change the estimate.", "quantifier": "all inputs", "why_tests_cant": "All sizes.", "anchors": ["src/filter/BatchLeastSquares.cpp:WeightedLinearLeastSquares"]}
{"id": "C58", "title": "Least-squares guards", "statement": "Each least-squares function returns false, leaving its outputs unchanged, exactly when a size is wrong or the system is underdetermined.", "quantifier": "all sizes", "why_tests_cant": "Sizes unbounded.", "anchors": ["src/filter/BatchLeastSquares.cpp"]}
{"id": "C59", "title": "Nonlinear least squares", "statement": "If the iteration returns, the last step was at most eps and the reported J is that of the returned state; on a linear model it returns the linear least-squares solution after at most two iterations; a negative eps never terminates.", "quantifier": "all user models, starting points and tolerances", "why_tests_cant": "Non-termination and all user models.", "anchors": ["src/filter/BatchLeastSquares.cpp:UnweightedNonlinearLeastSquares", "src/filter/BatchLeastSquares.cpp:WeightedNonlinearLeastSquares"]}
{"id": "C60", "title": "Nonlinear least squares as shipped", "statement": "With the shipped (empty) measurement model, the call either performs no iteration and leaves the given state, or subtracts an empty vector from the measurements (size mismatch).", "quantifier": "all inputs", "why_tests_cant": "Undefined behaviour / assertion.", "anchors": ["src/filter/BatchLeastSquares.cpp:ComputePredictedNonlinearMeasurement", "src/filter/BatchLeastSquares.cpp:RelinearizeH"]}
{"id": "C61", "title": "Compensator calibration store", "statement": "Get after set returns what was set; the last successful set wins; a set with a wrong size is rejected and changes nothing; accelerometer and gyroscope settings never affect each other.", "quantifier": "all call histories", "why_tests_cant": "Histories are unbounded.", "anchors": ["src/inertial/compensator.cpp"]}
{"id": "C62", "title": "Compensation applies the stored calibration", "statement": "After calibration is set, compensation returns SF*MIS*(m-b) with the stored values: unit scale factors, no misalignment and no bias leave the measurement unchanged, a measurement equal to the bias maps to zero, and the map is affine; it does not change the stored calibration.", "quantifier": "all calibrations and measurements, all histories", "why_tests_cant": "The input space is a continuum; a test compares a handful of points to a tolerance and cannot exclude a wrong sign or a missed branch elsewhere.", "anchors": ["src/inertial/compensator.cpp:compensateMeasurement"]}
{"id": "C63", "title": "Compensating before calibrating", "statement": "Compensating (or reading) before any calibration of that sensor should be rejected. (The code indexes an empty vector.)", "quantifier": "all histories without a set", "why_tests_cant": "Undefined behaviour is invisible to a passing test.", "anchors": ["src/inertial/compensator.cpp:compensateMeasurement"]}
{"id": "C64", "title": "Strapdown attitude stays a rotation and accumulates the increments", "statement": "After initialize and any number of integrate calls with non-zero rotation increments, the attitude is a proper rotation equal to the initial one times the product of the increments' exponentials, in order.", "quantifier": "all histories", "why_tests_cant": "Histories are unbounded.", "anchors": ["src/inertial/strapdown.cpp:integrate", "src/inertial/strapdown.cpp:updateAttitude"]}
{"id": "C65", "title": "Stationary vehicle", "statement": "A zero rotation increment leaves the attitude unchanged. (The code computes 0/0; the attitude, and from the same call position and velocity, are lost until re-initialised.)", "quantifier": "all histories containing a zero increment", "why_tests_cant": "Histories are unbounded.", "anchors": ["src/inertial/strapdown.cpp:updateAttitude"]}
{"id": "C66", "title": "Strapdown time bookkeeping", "statement": "After integrate, tov_ is the measurement time and dt_ the difference to the previous time in seconds; two measurements with the same time destroy position and velocity but not attitude; the subtraction overflows int64 for some time pairs.", "quantifier": "all histories and int64 times", "why_tests_cant": "2^128 time pairs; unbounded histories.", "anchors": ["src/inertial/strapdown.cpp:integrate"]}
{"id": "C67", "title": "Initial strapdown attitude", "statement": "After initialize with roll r, pitch p, heading h, the body-to-NED matrix maps the body x axis to (cos p cos h, cos p sin h, -sin p). (The code stores the transpose.)", "quantifier": "all attitudes", "why_tests_cant": "The input space is a continuum; a test compares a handful of points to a tolerance and cannot exclude a wrong sign or a missed branch elsewhere.", "anchors": ["src/inertial/strapdown.cpp:initialize", "src/util/Attitude.cpp:euler2Dcm"]}
{"id": "C68", "title": "Rotations about one axis add up", "statement": "Integrating increments s1*n, ..., sk*n about a fixed axis gives the same attitude as one increment (s1+...+sk)*n, for every split with non-zero increments and sum.", "quantifier": "all splits of a rotation, of any length", "why_tests_cant": "Histories are unbounded.", "anchors": ["src/inertial/strapdown.cpp:updateAttitude"]}
{"id": "C69", "title": "Coarse alignment recovers the true attitude", "statement": "For a stationary, error-free unit at latitude lat (|lat|<pi/2), with g, wE non-zero, coarseAttitudeAlignment returns exactly the true body-to-NED rotation for every true rotation; at the poles no finite matrix; for inconsistent measurements the result need not be a rotation.", "quantifier": "all rotations and latitudes", "why_tests_cant": "The input space is a continuum; a test compares a handful of points to a tolerance and cannot exclude a wrong sign or a missed branch elsewhere.", "anchors": ["src/inertial/initialization.cpp:coarseAttitudeAlignment"]}
{"id": "C70", "title": "Fine alignment prediction", "statement": "fineAlignmentPredict succeeds exactly for 8-element states with matching sizes; a constant gyro bias estimate is preserved by prediction. (The code uses the continuous-time matrix as transition matrix and resets the biases to 0.)", "quantifier": "all states and sizes", "why_tests_cant": "The input space is a continuum; a test compares a handful of points to a tolerance and cannot exclude a wrong sign or a missed branch elsewhere.", "anchors": ["src/inertial/initialization.cpp:fineAlignmentPredict"]}
{"id": "C71", "title": "Fine alignment azimuth update", "statement": "For a valid covariance with P33 + R > 0, the azimuth error estimate moves to the variance-weighted mean of prediction and residual and its variance becomes P33*R/(P33+R); uncorrelated states are unchanged.", "quantifier": "all states and covariances", "why_tests_cant": "The input space is a continuum; a test compares a handful of points to a tolerance and cannot exclude a wrong sign or a missed branch elsewhere.", "anchors": ["src/inertial/initialization.cpp:fineAlignmentAzimuthUpdate"]}
{"id": "C72", "title": "Fine alignment velocity update", "statement": "The update is the Kalman update observing exactly the two velocity states with variance sig^2*dt each; a perfect measurement (dt = 0) pins both velocity errors to the measurement; covariance stays PSD.", "quantifier": "all states and covariances", "why_tests_cant": "The input space is a continuum; a test compares a handful of points to a tolerance and cannot exclude a wrong sign or a missed branch elsewhere.", "anchors": ["src/inertial/initialization.cpp:fineAlignmentVelocityUpdate"]}
{"id": "C73", "title": "Inertial-frame error dynamics", "statement": "Every entry of F and G equals the documented block model: velocity error rate = a x attitude error + gravity gradient * position error + R*accel error + gravity error; attitude error rate = -R * gyro error; position error rate = velocity error.", "quantifier": "all inputs, all error vectors", "why_tests_cant": "The input space is a continuum; a test compares a handful of points to a tolerance and cannot exclude a wrong sign or a missed branch elsewhere.", "anchors": ["src/inertial/pvaErrorDynamics.cpp:inertialErrorDynamics"]}
{"id": "C74", "title": "ECEF-frame error dynamics", "statement": "As C73 with -Omega on attitude, -2*Omega on velocity and -(Omega*Omega - Gamma) on position.", "quantifier": "all inputs", "why_tests_cant": "The input space is a continuum; a test compares a handful of points to a tolerance and cannot exclude a wrong sign or a missed branch elsewhere.", "anchors": ["src/inertial/pvaErrorDynamics.cpp:ecefErrorDynamics"]}
{"id": "C75", "title": "NED error dynamics matrix is the Jacobian of the navigation equations", "statement": "Every entry of F is the partial derivative of the (spherical-radius) NED navigation equations with respect to the corresponding state. (One entry, longitude acceleration with respect to height, lacks a factor.)", "quantifier": "all positions, rates, accelerations", "why_tests_cant": "The input space is a continuum; a test compares a handful of points to a tolerance and cannot exclude a wrong sign or a missed branch elsewhere.", "anchors": ["src/inertial/pvaErrorDynamics.cpp:nedErrorDynamics"]}
{"id": "C76", "title": "NED error dynamics forcing matrix and definedness", "statement": "G maps gyro errors by -R and acceleration and gravity errors by the inverse of diag(M+h,(N+h)cos lat,-1) (times R); F and G do not depend on longitude or on gravity-gradient entries other than (3,3); at the poles no finite result.", "quantifier": "all inputs", "why_tests_cant": "The input space is a continuum; a test compares a handful of points to a tolerance and cannot exclude a wrong sign or a missed branch elsewhere.", "anchors": ["src/inertial/pvaErrorDynamics.cpp:nedErrorDynamics"]}
{"id": "C77", "title": "UT1 across a leap second", "statement": "On every day, UT1 - TAI computed from the looked-up UT1-UTC and TAI-UTC is the linear interpolation of its values at the two midnights. (On the day before a leap second the code is off by the elapsed fraction of the day times one second.)", "quantifier": "all tables, all times of day", "why_tests_cant": "Leap-second days are a handful in decades; the error depends on the time of day.", "anchors": ["src/util/Rotations.cpp:getCurrentEop"]}
{"id": "C78", "title": "Attitude of a vehicle at rest on the rotating Earth", "statement": "For a vehicle at rest, whose gyros sense only the Earth's rotation, the computed body-to-NED attitude stays constant over any number of samples. (The code ignores Earth and transport rate: the computed attitude turns with the Earth.)", "quantifier": "all attitudes, Earth rates, sample counts", "why_tests_cant": "Histories are unbounded; the drift in one sample is tiny.", "anchors": ["src/inertial/strapdown.cpp:updateAttitude"]}
{"id": "C79", "title": "Longitude equivariance of the navigator", "statement": "Starting the navigator at a longitude shifted by k shifts every later longitude by k and changes nothing else, for every history.", "quantifier": "all histories, all shifts", "why_tests_cant": "Histories are unbounded.", "anchors": ["src/inertial/strapdown.cpp:integrate", "src/util/NavUtils.cpp:strapdownRk4"]}
{"id": "C80", "title": "Initialising forgets the past", "statement": "After initialize, every later call behaves the same whatever happened before, including lost (non-finite) values.", "quantifier": "all objects, all histories", "why_tests_cant": "Histories are unbounded.", "anchors": ["src/inertial/strapdown.cpp:initialize"]}
{"id": "C81", "title": "Acceleration errors act alike whatever their source", "statement": "In the NED error dynamics an acceleration error caused by an attitude error (through F) and an equal one caused by the accelerometer (through G) produce the same second derivatives of latitude, longitude and height. (F divides by the Gauss radius, G by the meridian and prime-vertical radii, so they differ off the poles.)", "quantifier": "all positions, accelerations, attitude errors", "why_tests_cant": "The input space is a continuum; a test compares a handful of points to a tolerance and cannot exclude a wrong sign or a missed branch elsewhere.", "anchors": ["src/inertial/pvaErrorDynamics.cpp:nedErrorDynamics"]}
{"id": "C82", "title": "Filters do not depend on the choice of coordinates", "statement": "Changing the coordinates of the state (by an invertible T) and of the measurement (by an invertible U) changes the outputs of filterPredict and filterUpdate by the same T and nothing else.", "quantifier": "all invertible T and U, all inputs", "why_tests_cant": "Every matrix and dimension.", "anchors": ["src/filter/KalmanFilter.cpp:filterPredict", "src/filter/KalmanFilter.cpp:filterUpdate"]}
{"id": "C83", "title": "Measurements add information, in any order", "statement": "After any list of updates P'^-1 = P^-1 + sum of H^T R^-1 H and P'^-1 x' = P^-1 x + sum of H^T R^-1 z; so the result does not depend on the order of the measurements.", "quantifier": "all lists of measurements, all permutations", "why_tests_cant": "Lists are unbounded.", "anchors": ["src/filter/KalmanFilter.cpp:filterUpdate"]}
{"id": "C84", "title": "The update is the regularised least-squares solution", "statement": "For positive definite P and R the returned state is the only minimiser of (v-x)^T P^-1 (v-x) + (z-Hv)^T R^-1 (z-Hv), and the returned covariance is the inverse of the Hessian of half that cost.", "quantifier": "all inputs and all competitors v", "why_tests_cant": "Optimality over all vectors.", "anchors": ["src/filter/KalmanFilter.cpp:filterUpdate"]}
{"id": "C85", "title": "Better data give a better covariance", "statement": "Leaving out updates, or increasing the process noise, the measurement noise or the initial covariance, never makes the final covariance smaller.", "quantifier": "all pairs of histories", "why_tests_cant": "Histories are unbounded.", "anchors": ["src/filter/KalmanFilter.cpp:filterPredict", "src/filter/KalmanFilter.cpp:filterUpdate"]}
{"id": "C86", "title": "A filter run on its own model is consistent", "statement": "If the truth moves and is measured with independent zero-mean noises whose covariances are given to the filter, then after any history the estimates are unbiased and the filter's covariance is exactly the covariance of their errors.", "quantifier": "all histories, all finite noise distributions", "why_tests_cant": "A simulation samples a few runs; the claim is about every distribution and history.", "anchors": ["src/filter/KalmanFilter.cpp:filterPredict", "src/filter/KalmanFilter.cpp:filterUpdate"]}
{"id": "C87", "title": "The Kalman update is batch least squares", "statement": "For positive definite P and R, the state returned by filterUpdate is the state returned by WeightedLinearLeastSquares for the stacked data [x; z], matrix [I; H] and weight blkdiag(P^-1, R^-1).", "quantifier": "all sizes and values", "why_tests_cant": "Relates two functions over all inputs.", "anchors": ["src/filter/KalmanFilter.cpp:filterUpdate", "src/filter/BatchLeastSquares.cpp:WeightedLinearLeastSquares"]}
{"id": "C88", "title": "Least squares recovers exact data", "statement": "If y = H x with H of full column rank, the linear least-squares functions return x and J = 0.", "quantifier": "all sizes, all H of full column rank, all x", "why_tests_cant": "The input space is a continuum; a test compares a handful of points to a tolerance and cannot exclude a wrong sign or a missed branch elsewhere.", "anchors": ["src/filter/BatchLeastSquares.cpp:UnweightedLinearLeastSquares", "src/filter/BatchLeastSquares.cpp:WeightedLinearLeastSquares"]}
{"id": "C89", "title": "Weighted least squares is the best linear unbiased estimator", "statement": "With W the inverse of the noise covariance R, over any ensemble of zero-mean noise the returned estimates average to the true state, their covariance is (H^T R^-1 H)^-1, and every linear unbiased estimator has at least that covariance.", "quantifier": "all sizes, all noise ensembles, all competing estimators", "why_tests_cant": "Statistical optimality quantifies over all estimators.", "anchors": ["src/filter/BatchLeastSquares.cpp:WeightedLinearLeastSquares"]}
{"id": "C90", "title": "Effect of sensor errors on coarse alignment", "statement": "A gyro error e leaves the down row of the coarse attitude exact and turns the heading by e_east/(wE cos lat); an accelerometer error e tilts the down row by e/g, whatever the gyros read.", "quantifier": "all errors, rotations, latitudes", "why_tests_cant": "The input space is a continuum; a test compares a handful of points to a tolerance and cannot exclude a wrong sign or a missed branch elsewhere.", "anchors": ["src/inertial/initialization.cpp:coarseAttitudeAlignment"]}
{"id": "C91", "title": "Fine alignment cannot estimate the gyro biases", "statement": "After any history of fine-alignment calls containing a prediction, the gyro bias estimates and their covariances are exactly 0, whatever was measured.", "quantifier": "all histories of calls", "why_tests_cant": "Histories are unbounded.", "anchors": ["src/inertial/initialization.cpp:fineAlignmentPredict", "src/inertial/initialization.cpp:fineAlignmentAzimuthUpdate", "src/inertial/initialization.cpp:fineAlignmentVelocityUpdate"]}
{"id": "C92", "title": "The azimuth residual is not wrapped", "statement": "Adding a whole turn to the measured azimuth moves every state by its gain times 2 pi; two measurements of the same heading give different estimates unless the azimuth variance is 0.", "quantifier": "all states, covariances and azimuths", "why_tests_cant": "The input space is a continuum; a test compares a handful of points to a tolerance and cannot exclude a wrong sign or a missed branch elsewhere.", "anchors": ["src/inertial/initialization.cpp:fineAlignmentAzimuthUpdate"]}
{"id": "C93", "title": "A supported vehicle stays where it is", "statement": "If the vehicle is at rest and every velocity increment, resolved along the attitude reached with that sample, cancels gravity over the time step, position and velocity never change, however the vehicle turns.", "quantifier": "all histories, attitudes, positions off the poles", "why_tests_cant": "Histories are unbounded.", "anchors": ["src/inertial/strapdown.cpp:integrate", "src/util/NavUtils.cpp:strapdownRk4"]}
{"id": "C94", "title": "The mounting of the unit does not matter", "statement": "Mounting the unit with a constant rotation C (increments read as C^T dV, C^T dTheta, initial attitude A C) changes every later attitude A' to A' C and leaves positions and velocities the same.", "quantifier": "all rotations C and histories", "why_tests_cant": "Histories are unbounded; a test picks one mounting.", "anchors": ["src/inertial/strapdown.cpp:integrate", "src/inertial/strapdown.cpp:updateAttitude"]}
{"id": "C95", "title": "Flights reflected in the equator", "statement": "Reflecting the start and every sample in the plane of the equator reflects the whole trajectory.", "quantifier": "all histories", "why_tests_cant": "Histories are unbounded.", "anchors": ["src/inertial/strapdown.cpp:integrate", "src/util/NavUtils.cpp:strapdownDynamics", "src/util/Gravity.cpp:gravityNed"]}
{"id": "C96", "title": "Vertical gradient of gravity", "statement": "On the ellipsoid the derivative of the down component with height is -g(1/M + 1/N) - 2 wE^2 (Bruns) to one part in 10^4.", "quantifier": "all latitudes", "why_tests_cant": "The input space is a continuum; a test compares a handful of points to a tolerance and cannot exclude a wrong sign or a missed branch elsewhere.", "anchors": ["src/util/Gravity.cpp:gravityNed"]}
{"id": "C97", "title": "The gravity field is irrotational near the ellipsoid", "statement": "On the ellipsoid the height derivative of the north component is minus the latitude derivative of the down component over M, to one percent.", "quantifier": "all latitudes", "why_tests_cant": "The input space is a continuum; a test compares a handful of points to a tolerance and cannot exclude a wrong sign or a missed branch elsewhere.", "anchors": ["src/util/Gravity.cpp:gravityNed"]}
{"id": "C98", "title": "Gravity constants are consistent", "statement": "Gravity at the equator and the pole satisfies Pizzetti's theorem with the ellipsoid, GM and the rotation rate to 1e-8, and Clairaut's theorem to one percent.", "quantifier": "the two latitudes 0 and pi/2", "why_tests_cant": "Compares constants with each other, not with a stored copy.", "anchors": ["src/util/Gravity.cpp:gravityNed"]}
{"id": "C99", "title": "Nutation moves ecliptic coordinates", "statement": "The nutation matrix sends the direction of ecliptic longitude l and latitude b at the mean obliquity e to longitude l + dpsi and latitude b at the obliquity e + deps.", "quantifier": "all dates and directions", "why_tests_cant": "The input space is a continuum; a test compares a handful of points to a tolerance and cannot exclude a wrong sign or a missed branch elsewhere.", "anchors": ["src/util/Rotations.cpp:computeNutation"]}
{"id": "C100", "title": "The pole of date in the Earth frame", "statement": "The rotation sends the pole of date to (sin x cos y, -sin y, cos x cos y) for pole coordinates x (along Greenwich) and y (along 90 degrees west).", "quantifier": "all dates and tables", "why_tests_cant": "The input space is a continuum; a test compares a handful of points to a tolerance and cannot exclude a wrong sign or a missed branch elsewhere.", "anchors": ["src/util/Rotations.cpp:computeRJ2k2Ecef", "src/util/Rotations.cpp:polarRotation"]}
{"id": "C101", "title": "Leap seconds do not move the Earth", "statement": "Two dates and tables that give the same UT1, the same TAI and the same pole give the same rotation.", "quantifier": "all dates and tables", "why_tests_cant": "The input space is a continuum; a test compares a handful of points to a tolerance and cannot exclude a wrong sign or a missed branch elsewhere.", "anchors": ["src/util/Rotations.cpp:computeRJ2k2Ecef"]}
{"id": "C102", "title": "Precession rates at J2000", "statement": "The derivative at J2000 of the precession matrix applied to v is (-m v_y - n v_z, m v_x, n v_x) with m = 4612.4362 and n = 2004.3109 arcseconds per century.", "quantifier": "all directions", "why_tests_cant": "The input space is a continuum; a test compares a handful of points to a tolerance and cannot exclude a wrong sign or a missed branch elsewhere.", "anchors": ["src/util/Rotations.cpp:computePrecession"]}
{"id": "C103", "title": "Attitude error from rounding", "statement": "In double arithmetic, whatever the order of the sums and with sine and cosine good to two units in the last place of 1, the attitude after n updates with rotation increments between 2^-480 and 4 radians is finite, within 2100 n 2^-53 of the exact composition of the rotations (plus the initial error), and orthogonal to within 6300 n 2^-53.", "quantifier": "all histories of increments, all initial attitudes, all arithmetics meeting the error model", "why_tests_cant": "The error grows with the length of the history; no test runs for 10^12 updates or over all roundings.", "anchors": ["src/inertial/strapdown.cpp:updateAttitude"]}
{"id": "C104", "title": "Short rotation increments", "statement": "A rotation increment that is not zero never makes the attitude non-finite in double arithmetic.", "quantifier": "all non-zero increments and histories", "why_tests_cant": "Needs the underflow range of the squared norm.", "anchors": ["src/inertial/strapdown.cpp:updateAttitude"]}
{"id": "C105", "title": "Time step in double arithmetic", "statement": "For time tags at most 2^52 microseconds apart the stored time step is finite, within half a microsecond of the true difference, strictly increasing in the new tag, and zero for equal tags only.", "quantifier": "all pairs of time tags", "why_tests_cant": "Rounding of all 2^53 differences.", "anchors": ["src/inertial/strapdown.cpp:integrate"]}
{"id": "C106", "title": "Position error from rounding", "statement": "For every latitude and longitude that pass the range check and every altitude up to 10,000 km in size, the position computed in double arithmetic is finite and within 0.2 micrometres of the point at that height on the ellipsoid normal.", "quantifier": "all doubles that pass the check, every arithmetic that meets the error model", "why_tests_cant": "All pairs of doubles; the error through two square roots and a division.", "anchors": ["src/util/Rotations.cpp:lla2Ecef"]}
{"id": "C107", "title": "Navigation frames in double arithmetic", "statement": "With rounding the two navigation frame matrices are exact transposes of each other, each is within 21 units of 2^-53 of the exact rotation, and a round trip returns every vector up to 43 units.", "quantifier": "all doubles that pass the check and all vectors", "why_tests_cant": "All pairs of doubles and all vectors.", "anchors": ["src/util/Rotations.cpp:computeREcef2Ned", "src/util/Rotations.cpp:computeRNed2Ecef"]}
{"id": "C108", "title": "Gravity error from rounding", "statement": "Up to 1000 km from the ellipsoid and at every latitude, gravityNed computed in double arithmetic is finite, has no east component, and is within 2e-13 m/s^2 of the exact formula in the north and down components.", "quantifier": "all latitudes and heights up to 1000 km, every arithmetic that meets the error model", "why_tests_cant": "A continuum of inputs; the error through a square root and three divisions.", "anchors": ["src/util/Gravity.cpp:gravityNed"]}
{"id": "C109", "title": "Point-mass gravity error from rounding", "statement": "At every distance from 1 km to 10^12 m, simpleGravity computed in double arithmetic is finite with a relative error of at most 50 units of 2^-53.", "quantifier": "all positions in that range, every order of summation", "why_tests_cant": "The input space is a continuum; a test compares a handful of points to a tolerance and cannot exclude a wrong sign or a missed branch elsewhere.", "anchors": ["src/util/Gravity.cpp:simpleGravity"]}
{"id": "C110", "title": "Geodetic coordinates exist and are unique", "statement": "Every point at least 50 km from the centre of the Earth is the image of some latitude, longitude and altitude under lla2Ecef, off the polar axis of exactly one in range; between 6300 and 6450 km from the centre ecef2Lla returns coordinates whose position is within 2 mm of the point.", "quantifier": "all points of space outside a ball of 50 km, and all points of the shell near the surface", "why_tests_cant": "Existence and uniqueness over a continuum cannot be sampled.", "anchors": ["src/util/Rotations.cpp:lla2Ecef", "src/util/Rotations.cpp:ecef2Lla"]}
{"id": "C111", "title": "Initial estimate is forgotten", "statement": "Two filters fed the same data from different initial estimates end with the same covariance, and their difference measured against that covariance never grows; with exact data the same holds for the error of the estimate.", "quantifier": "all histories of predictions and updates of any length and size", "why_tests_cant": "Histories of any length and matrices of any size.", "anchors": ["src/filter/KalmanFilter.cpp:filterPredict", "src/filter/KalmanFilter.cpp:filterUpdate"]}
{"id": "C112", "title": "Repeated measurements", "statement": "An update whose measurement determines the whole state leaves a covariance bounded by the measurement noise alone, whatever the prior, and k such updates divide that bound by k.", "quantifier": "all sizes, all priors, any number of updates", "why_tests_cant": "Any prior and any number of updates.", "anchors": ["src/filter/KalmanFilter.cpp:filterUpdate"]}
{"id": "C113", "title": "The error models are the linearised equations of motion", "statement": "With G the gradient of the gravity field, the inertial and ECEF error models are the exact first-order change of the equations of motion (attitude, velocity, position) when attitude, velocity, position, both sensors and gravity are off; the point-mass model of the repository has the expected gradient.", "quantifier": "all rotations, rates, forces, positions, error directions and differentiable gravity fields", "why_tests_cant": "A sign slip in one block changes no size and no guard; the unit tests compare with numbers produced by the same formulas.", "anchors": ["src/inertial/pvaErrorDynamics.cpp:inertialErrorDynamics", "src/inertial/pvaErrorDynamics.cpp:ecefErrorDynamics", "src/util/Gravity.cpp:simpleGravity"]}
{"id": "C114", "title": "Inertial and ECEF error models agree", "statement": "A time history of errors obeys the inertial error model exactly when the same errors, seen in axes that turn about the polar axis at the Earth rate, obey the ECEF error model.", "quantifier": "all time histories of errors, forces, gravity gradients, mountings and sensor errors, and all rates", "why_tests_cant": "A statement about whole solutions of differential equations.", "anchors": ["src/inertial/pvaErrorDynamics.cpp:inertialErrorDynamics", "src/inertial/pvaErrorDynamics.cpp:ecefErrorDynamics"]}
{"id": "C115", "title": "Height errors diverge, horizontal errors oscillate", "statement": "Near a point mass every unforced solution of the inertial error model keeps its attitude error, has a height error that follows cosh and sinh with rate sqrt(2k/r^3), and horizontal errors that oscillate at the rate sqrt(k/r^3) about an offset given by the tilt. Near the Earth's surface the period is about 84 minutes and a height error grows a thousandfold in 77 minutes.", "quantifier": "all positions, initial errors and times", "why_tests_cant": "A statement about whole solutions of differential equations.", "anchors": ["src/inertial/pvaErrorDynamics.cpp:inertialErrorDynamics", "src/util/Gravity.cpp:simpleGravity"]}
{"id": "C116", "title": "The scalar filter in double arithmetic", "statement": "With rounding, a measurement update of a filter with one state reports a variance that is at least the true posterior variance less 6 units of 2^-53, so the filter is never over-confident, and above it by at most 6 units plus 64 squared units of the variance before. A prediction is within 4 units. Over a history of up to 2^49 calls the computed variance is within a factor (1 +- 8 units)^k of the true one.", "quantifier": "all doubles between 2^-50 and 2^50, all histories of predictions and updates", "why_tests_cant": "All doubles and all histories.", "anchors": ["src/filter/KalmanFilter.cpp:filterPredict", "src/filter/KalmanFilter.cpp:filterUpdate"]}
{"id": "C117", "title": "Quaternion to matrix in double arithmetic", "statement": "For every quaternion, normalised or not, with a squared length between 2^-900 and 2^1000, the matrix computed with rounding moves every vector within 30 units of 2^-53 of the exact rotation. A nonzero quaternion of length 2^-540 makes the function divide zero by zero.", "quantifier": "all quaternions in range, all vectors, all roundings with the binary64 error bound", "why_tests_cant": "All quaternions.", "anchors": ["src/util/Attitude.cpp:computeDcmFromQuaternion"]}
{"id": "C118", "title": "Matrix to quaternion in double arithmetic", "statement": "From a matrix within k units of 2^-53 of a rotation, the conversion with rounding recovers the unit quaternion up to sign within 14 k + 120 units, provided one component is larger in square than the others by 2 k + 8 units. So the trip from quaternion to matrix and back costs at most 260 units. Without a dominant component the claim is false: the matrix of a roll of M_PI_2 converts to a NaN quaternion in doubles.", "quantifier": "all unit quaternions with a dominant component, all perturbed matrices, all roundings with the binary64 error bound", "why_tests_cant": "All rotations; the failure hits the most ordinary right angle.", "anchors": ["src/util/Attitude.cpp:computeQuaternionFromDcm", "src/util/Attitude.cpp:computeDcmFromQuaternion", "src/util/Attitude.cpp:euler2Dcm"]}
{"id": "C119", "title": "Quaternion to rotation vector in double arithmetic", "statement": "If the vector part of the quaternion is between 2e-6 and 0.995 long, rounding changes the rotation vector by at most 200 units of 2^-53; below 9e-7 the result is exactly zero. Near half a turn it fails: a rotation vector shorter than pi, sent to a quaternion by the repository's own function, comes back as NaN, and rounding an exact quaternion to doubles can cost more than 1e-8 rad.", "quantifier": "all quaternions in range, all roundings with the binary64 error bound, every arc sine good to 4 units", "why_tests_cant": "All quaternions; the failures need specific bit patterns.", "anchors": ["src/util/Attitude.cpp:computeRotationVecFromQuaternion", "src/util/Attitude.cpp:computeQuaternionFromRotationVec"]}
{"id": "C120", "title": "Rotation vector to quaternion in double arithmetic", "statement": "For rotation vectors between 2^-400 and 10 long the quaternion computed with rounding is within 40 units of 2^-53 of the exact one, however small the angle. A nonzero vector of length 2^-540 yields NaN.", "quantifier": "all rotation vectors in range, all roundings with the binary64 error bound", "why_tests_cant": "All rotation vectors.", "anchors": ["src/util/Attitude.cpp:computeQuaternionFromRotationVec"]}
{"id": "C121", "title": "The Runge-Kutta step in double arithmetic", "statement": "Computed with rounding in every operation, one strapdownRk4 step of up to a second, with accelerations up to 100 m/s^2 and away from the poles, yields numbers within 1e-15 rad in latitude, 4e-15 rad in longitude, 6e-11 m in height and 3e-12 m/s in velocity of the exact step.", "quantifier": "all states, increments and time steps in range, all roundings with the binary64 error bound, every pow good to four units", "why_tests_cant": "All states and inputs; rounding accumulates over four dynamics evaluations.", "anchors": ["src/util/NavUtils.cpp:strapdownRk4", "src/util/NavUtils.cpp:strapdownDynamics"]}
{"id": "C122", "title": "One integrate call in double arithmetic", "statement": "From the same stored state, integrate computed with rounding (attitude update, velocity rotation, time difference, gravity, Runge-Kutta step) gives an attitude within 3e-13 of the exact one on every vector, and a position and velocity within 1e-15 rad, 4e-15 rad, 1e-10 m and 3e-11 m/s. A repeated time of validity yields no numbers.", "quantifier": "all stored states, increments and times in range, all roundings with the binary64 error bound", "why_tests_cant": "All stored states and inputs; composes the error bounds of five functions.", "anchors": ["src/inertial/strapdown.cpp:integrate", "src/util/NavUtils.cpp:strapdownRk4", "src/util/Gravity.cpp:gravityNed"]}
{"id": "C123", "title": "The navigation equations are Newton's law", "statement": "A trajectory that follows the rates of strapdownDynamics, put through lla2Ecef and turned with the Earth into inertial axes, has as second derivative the sensed acceleration plus gravity plus w x (w x pos), the part by which the gravity model differs from gravitation. So the Coriolis and transport terms in the code are exactly those of the rotating, curved Earth.", "quantifier": "all smooth trajectories away from the poles, all accelerations and gravity vectors", "why_tests_cant": "Quantifies over all trajectories, with two derivatives of the position.", "anchors": ["src/util/NavUtils.cpp:strapdownDynamics", "src/util/NavUtils.cpp:lla2Ecef", "src/util/NavUtils.cpp:computeRNed2Ecef"]}
{"id": "C124", "title": "Angular momentum about the Earth's axis", "statement": "Along a trajectory that follows the rates of strapdownDynamics, with rho the distance from the axis, rho (vE + w rho) changes at the rate rho times the east component of sensed acceleration plus gravity: without an east force it is conserved.", "quantifier": "all smooth trajectories above -6300 km and away from the poles", "why_tests_cant": "Quantifies over all trajectories.", "anchors": ["src/util/NavUtils.cpp:strapdownDynamics", "src/util/NavUtils.cpp:lla2Ecef"]}
{"id": "C125", "title": "Unscented prediction of a linear map", "statement": "If the sigma points have mean x and covariance P and are carried through a linear map, filterUkfPredict returns what filterPredict returns; the usual symmetric points with any centre weight have that mean and covariance.", "quantifier": "all sizes, matrices and weights", "why_tests_cant": "All dimensions and matrices.", "anchors": ["src/filter/KalmanFilter.cpp:filterUkfPredict", "src/filter/KalmanFilter.cpp:filterPredict"]}
{"id": "C126", "title": "Unscented prediction of a quadratic map", "statement": "Through a quadratic map filterUkfPredict returns the exact mean, the same for every distribution with the mean and covariance of the sigma points. The covariance it returns is not determined by those: two sets of points of mean zero and variance one yield variances zero and three.", "quantifier": "all sizes, quadratic maps and weights", "why_tests_cant": "All dimensions and maps.", "anchors": ["src/filter/KalmanFilter.cpp:filterUkfPredict"]}
{"id": "C127", "title": "Covariance prediction in double arithmetic", "statement": "With n states, every entry of the predicted covariance is within 3(n+1) units of 2^-53 of the sum of the sizes of its terms, whatever the order of summation, and so is its symmetry. A symmetric positive semidefinite covariance can come out of the plain loop in doubles not symmetric, or with a negative variance.", "quantifier": "all sizes up to a million states, all matrices, all roundings and summation orders with the stated error", "why_tests_cant": "All dimensions and matrices; the failures need specific bit patterns.", "anchors": ["src/filter/KalmanFilter.cpp:filterPredict"]}
{"id": "C128", "title": "Measurement compensation in double arithmetic", "statement": "Every component of the compensated measurement is within ten units of 2^-53 of the sum of the sizes of its terms, taken after the bias is subtracted. With all errors zero, doubles come back bit for bit.", "quantifier": "all measurements, biases, misalignments and scale factors, all roundings with the binary64 error bound", "why_tests_cant": "All inputs.", "anchors": ["src/inertial/compensator.cpp:compensateMeasurement"]}
{"id": "C129", "title": "Convergence of the navigator", "statement": "Along any motion that obeys the strapdown equations off the poles, below 6200 km and with bounded velocity, force and rate, the attitude, position and velocity after any number of calls are within a constant times (initial error + longest step + sensor error per second) of the true ones. The constant and the admissible errors depend only on the bounds and on the duration.", "quantifier": "all such motions, all sample sequences, all initial errors below a positive bound", "why_tests_cant": "Every motion, every sampling and every number of calls; a limit.", "anchors": ["src/inertial/strapdown.cpp:integrate", "src/inertial/strapdown.cpp:updateAttitude", "src/util/NavUtils.cpp:strapdownRk4", "src/util/NavUtils.cpp:strapdownDynamics", "src/util/Gravity.cpp:gravityNed"]}
{"id": "C130", "title": "Order of accuracy of the navigator", "statement": "The error decreases like the step length and not faster. A vehicle at rest on the equator that rolls at 1 rad/s, with exact increments over N equal steps of one second, ends with a computed east velocity between 4/N and 5/N m/s. With samples every 10 ms it is 4 to 5 cm/s after one second.", "quantifier": "all numbers of steps from ten on", "why_tests_cant": "Every step length; an asymptotic order.", "anchors": ["src/inertial/strapdown.cpp:integrate", "src/inertial/strapdown.cpp:updateAttitude", "src/util/NavUtils.cpp:strapdownRk4"]}
{"id": "C131", "title": "Attitude from integrated rates is second order", "statement": "If the rotation increments are the exact integrals of a body rate of at most M rad/s that changes by at most L rad/s per second, over intervals of at most eta seconds, the angle by which the computed attitude turns any unit vector away from the truth grows by at most M L eta^2 / 3 per second, for intervals of any length; an initial error is carried along unchanged.", "quantifier": "all attitude motions with bounded rate and bounded angular acceleration, all histories and time stamps", "why_tests_cant": "Every differentiable motion; an asymptotic order.", "anchors": ["src/inertial/strapdown.cpp:updateAttitude", "src/inertial/strapdown.cpp:integrate"]}
{"id": "C132", "title": "Coning motion", "statement": "Fed with the exact integrals of the body rate, the navigator returns the true attitude. (It treats the integral as a rotation vector, with no coning correction: a unit that cones with half angle e and is sampled once per cycle is computed to turn by the solid angle 2 pi (1 - cos e) per cycle although it always comes back to the same attitude.)", "quantifier": "all cone angles, rates and numbers of cycles", "why_tests_cant": "Every cone angle and history.", "anchors": ["src/inertial/strapdown.cpp:updateAttitude", "src/inertial/strapdown.cpp:integrate"]}
{"id": "C133", "title": "Forgetting is geometric", "statement": "If every prediction adds at least d times the covariance it carries over, the difference between two estimates fed the same data, squared and measured against the covariance, is divided by 1+d with every prediction, and so is the relative excess of one covariance over another. If every measurement determines the whole state, any two initial covariances agree after k+1 cycles up to the factor 1+1/(d (1+d)^k).", "quantifier": "all dimensions, histories, models and initial covariances with the stated noise", "why_tests_cant": "All dimensions and unbounded histories.", "anchors": ["src/filter/KalmanFilter.cpp:filterPredict", "src/filter/KalmanFilter.cpp:filterUpdate"]}
{"id": "C134", "title": "Steady state of the filter", "statement": "For a constant model with positive definite noises and measurements that determine the whole state there is exactly one covariance that an update followed by a prediction reproduces, it is positive definite, and the covariance of every run from every start approaches it by at least a constant factor per cycle.", "quantifier": "all dimensions, constant models, starts and measurement sequences", "why_tests_cant": "All dimensions; existence and uniqueness of a limit.", "anchors": ["src/filter/KalmanFilter.cpp:filterPredict", "src/filter/KalmanFilter.cpp:filterUpdate"]}
{"id": "C135", "title": "Whole runs of integrate in double arithmetic", "statement": "The computed attitude is never exactly a rotation. From an attitude within e of a rotation (e up to 0.01) one rounded call returns true, its attitude is within e + 2100*2^-53 of a rotation, and attitude, position and velocity are within 3e-13, 1e-15 rad, 4e-15 rad, 1e-10 m and 3e-11 m/s of the exact call from the same numbers. So every call of a run does this while the computed position stays in range, for up to 4e10 calls.", "quantifier": "all runs, all stored states near a rotation and away from the poles, all inputs in range, all roundings with the binary64 error bound", "why_tests_cant": "Every run of every length; no computed state meets the hypothesis of the single-call bound.", "anchors": ["src/inertial/strapdown.cpp:integrate", "src/inertial/strapdown.cpp:updateAttitude", "src/util/NavUtils.cpp:strapdownRk4", "src/util/Gravity.cpp:gravityNed"]}
{"id": "C136", "title": "Convergence of runs with rounding errors", "statement": "If every call may end up to rho away from its exact result, the error after N calls is at most a constant times (initial error + longest step + sensor error per second + N*rho). Runs in double arithmetic whose computed positions stay in range are such runs with rho = 2e-10, so their error has this bound with one constant for all motions, samplings and roundings.", "quantifier": "all motions in a region, all samplings, all disturbances or roundings", "why_tests_cant": "Every motion, sampling, length and rounding; a stability property.", "anchors": ["src/inertial/strapdown.cpp:integrate", "src/inertial/strapdown.cpp:updateAttitude", "src/util/NavUtils.cpp:strapdownRk4", "src/util/NavUtils.cpp:strapdownDynamics", "src/util/Gravity.cpp:gravityNed"]}
{"id": "C137", "title": "Sensors and initial state determine the motion", "statement": "Two motions by the strapdown equations of the code, in a region off the poles with bounded velocity, force and rate, stay within a constant times (distance at the start + largest difference of specific force and rate) of each other. In particular equal sensors and equal initial states give equal motions.", "quantifier": "all pairs of motions in the region, all times", "why_tests_cant": "All solutions of a differential equation.", "anchors": ["src/util/NavUtils.cpp:strapdownDynamics", "src/util/Gravity.cpp:gravityNed"]}
{"id": "C138", "title": "Day number and sidereal time in double arithmetic", "statement": "Between 1810 and 2190 the Modified Julian Date computed in doubles is within 7.4e-12 day (0.64 microseconds) of the civil time, so times 1.3 microseconds apart keep their order. The mean sidereal time computed from a double is within 2e-12 rad of the exact value up to whole turns. From the civil date on, the computed angle is within 1e-10 rad, and a turned position is wrong by at most 1e-10 of its length. Times closer than the resolution can get the same day number.", "quantifier": "all valid dates and times of the day in these years, all UT1-UTC up to one second", "why_tests_cant": "Rounding errors over all dates; a test sees single dates and has no exact reference.", "anchors": ["src/util/Rotations.cpp:convertDatevec2Mjd", "src/util/Rotations.cpp:computeGreenwichHourAngle", "src/util/Rotations.cpp:computeRJ2k2Ecef"]}
{"id": "C139", "title": "Measurement update in double arithmetic", "statement": "For any number of states and measurements and whatever the matrix inversion returns, the mean and covariance that filterUpdate computes in doubles are those of an update with the gain it computed, up to a few times N rounding units of the sizes of the terms. An error D of the gain changes the covariance only by D S D^T, so no combination of states is reported with less than its exact variance, up to rounding. With one measurement the gain error is bounded too.", "quantifier": "all sizes up to a million, all inputs, all inversion routines", "why_tests_cant": "The claim of the comment 'Use Joseph Form for Stability': it holds for every inversion error, and tests see a few well-conditioned cases.", "anchors": ["src/filter/KalmanFilter.cpp:filterUpdate"]}
{"id": "C140", "title": "Geodetic coordinates in double arithmetic", "statement": "For positions 6300 to 16500 km from the centre and at least one degree from the poles, the latitude ecef2Lla computes in doubles is within 1e-14 rad and the altitude within ten micrometres of the exact computation, and the longitude is right up to the choice between pi and -pi. Near the surface, lla2Ecef in doubles accepts these coordinates and returns to within 2.1 mm of the point. The distance from the poles is needed: one millimetre from the axis the altitude is more than three metres off for every atan2 that returns doubles.", "quantifier": "all positions in the range, all arithmetic and libm functions within the stated errors", "why_tests_cant": "Tests compare a few positions far from the poles with a tolerance of their own; the loss near the axis only shows within metres of it.", "anchors": ["src/util/Rotations.cpp:ecef2Lla", "src/util/Rotations.cpp:lla2Ecef"]}
{"id": "C141", "title": "Euler angles in double arithmetic", "statement": "If every entry of the matrix is within e of the matrix of a roll, pitch and heading, the roll and pitch that dcm2Euler computes in doubles are off by at most about 3.5 e / cos(pitch), and the heading likewise up to a multiple of pi, which is zero for headings between 0 and pi that keep a distance of the same order from both ends. Angles converted with euler2Dcm and back, all in doubles, return within 1e-13 / cos(pitch). The same holds after a run of attitude updates in doubles. The heading is not continuous: a change of 2^-1000 in one entry of the identity turns heading 0 into pi.", "quantifier": "all angles and matrices in the range, all arithmetic and libm functions within the stated errors", "why_tests_cant": "Tests convert a few angles with a tolerance; a heading a rounding error below zero is never among them.", "anchors": ["src/util/Attitude.cpp:dcm2Euler", "src/util/Attitude.cpp:euler2Dcm"]}
{"id": "C142", "title": "Coarse alignment in double arithmetic", "statement": "Computed with rounding in every operation, including the determinant and cofactors of Eigen's 3x3 inverse, every entry of the coarse alignment matrix is within 115 units of 2^-53 over cos(lat)^2 of the exact one, for accelerations up to twice gravity and rates up to twice the Earth rate. From the sensor values of a vehicle at rest the true attitude is returned with that error.", "quantifier": "all latitudes with cosine at least 1/1000, all attitudes and sensor values in the range, all arithmetic within the stated errors", "why_tests_cant": "Tests align at one latitude with a tolerance of their own; the growth of the error towards the poles does not show.", "anchors": ["src/inertial/initialization.cpp:coarseAttitudeAlignment"]}
{"id": "C143", "title": "Errors in the covariance do not pile up", "statement": "If the covariance returned by every filter call is changed by up to the fraction e before the next call, every prediction adds at least d times the covariance it carries over and there are at most m measurements between predictions, the covariances stay within the fraction 2e(m+1)(1+1/d) of those of the undisturbed run, however long it is, and an initial difference dies out geometrically. If every measurement determines the whole state this holds from every start. Without process noise there is no such bound.", "quantifier": "all dimensions, models, histories of any length and disturbances", "why_tests_cant": "Tests run a few steps; whether errors accumulate over days of operation cannot be seen from them.", "anchors": ["src/filter/KalmanFilter.cpp:filterPredict", "src/filter/KalmanFilter.cpp:filterUpdate"]}
{"id": "C144", "title": "Errors in the estimate do not pile up", "statement": "If moreover every returned estimate is changed by up to f standard deviations, and no measurement is further than s standard deviations from what the running filter predicts, the estimates stay within 4(Ks+f)(m+1)(1+1/d) standard deviations of those of the undisturbed run, K being the bound on the covariances.", "quantifier": "all dimensions, models, histories of any length and disturbances", "why_tests_cant": "Tests run a few steps and compare with fixed numbers.", "anchors": ["src/filter/KalmanFilter.cpp:filterPredict", "src/filter/KalmanFilter.cpp:filterUpdate"]}
{"id": "C145", "title": "The scalar filter in doubles over any time", "statement": "With one state and process noise at least d times the variance carried over, the variance computed in double arithmetic is off by at most 16(m+1)(1+1/d) units of 2^-53 after any number of calls, where without process noise the bound grows with every call.", "quantifier": "all models and histories in the stated range of sizes, of any length", "why_tests_cant": "Tests run a few steps; slow growth of rounding errors does not show.", "anchors": ["src/filter/KalmanFilter.cpp:filterPredict", "src/filter/KalmanFilter.cpp:filterUpdate"]}
{"id": "C146", "title": "Loss of symmetry does not pile up", "statement": "The filter never makes the covariance symmetric again. If the covariance returned by every call is changed by up to the fraction e, symmetrically or not, and the estimate by up to f standard deviations, every prediction adds at least d times the covariance it carries over and there are at most m measurements between predictions, the covariances stay within the fraction 4e(m+1)(1+1/d) of the exact run, entry by entry, and the estimates within a fixed number of standard deviations, however long the run is.", "quantifier": "all dimensions, models, histories of any length and disturbances small enough", "why_tests_cant": "Tests run a few steps; a slowly growing asymmetry does not show.", "anchors": ["src/filter/KalmanFilter.cpp:filterPredict", "src/filter/KalmanFilter.cpp:filterUpdate"]}
{"id": "C147", "title": "Rounding errors of long filter runs", "statement": "A filter of n states alternates predictions and scalar measurements in double arithmetic, for as long as one likes. In the exact run the covariances stay at least l times the identity with entries up to p, every prediction adds at least d times the covariance it carries over, and there are at most m measurements between predictions. Then no call fails and the computed covariance differs from the exact one, in every pair of directions, by at most the fraction 4e(m+1)(1+1/d) with e = 1000 n (n+1) 2^-53 (p/l)((1+g)^2+b^2), b bounding the row sums of the transition matrices and g the ratio of predicted to measurement variance. The bound does not depend on the length of the run.", "quantifier": "all dimensions up to a million, histories of any length, rounding modes to nearest, summation orders and measured values", "why_tests_cant": "Rounding errors of a filter that runs for days cannot be seen in tests of a few steps.", "anchors": ["src/filter/KalmanFilter.cpp:filterPredict", "src/filter/KalmanFilter.cpp:filterUpdate"]}
{"id": "C148", "title": "Rounding errors of the estimates in long filter runs", "statement": "In the runs of C147, let the exact estimates stay up to X in every component and the measured values within s standard deviations of what the exact filter expects. Then the computed estimate stays within c standard deviations of the exact one in every direction, c = 4w(5 e w (s+1) + f), w = (m+1)(1+1/d), f = (n+1) 2^-53 ((1+g)^2+b^2)(60 X + 440 (s+1) sqrt p) sqrt(2n/l), whenever 16 e w^2 and c are at most one. The bound does not depend on the length of the run.", "quantifier": "all dimensions up to a million, histories of any length, rounding modes to nearest, summation orders and measured values", "why_tests_cant": "Rounding errors in the gain feed back into all later estimates; tests see a few steps.", "anchors": ["src/filter/KalmanFilter.cpp:filterPredict", "src/filter/KalmanFilter.cpp:filterUpdate"]}
{"id": "C149", "title": "Rounding errors of the J2000 to Earth-fixed rotation", "statement": "For calendar dates between 1810 and 2190 and Earth orientation parameters of ordinary size (pole up to 10 arcseconds, UT1-UTC up to 10 s, TAI-UTC up to 1000 s), computeRJ2k2Ecef and computeREcef2J2k in double arithmetic succeed, fail or read out of range exactly when they do with real numbers, and on success their matrices map every vector within 1e-10 of its length of the same place (0.64 mm on the surface of the Earth). For every date and table, a matrix they return is within 4e-13 of a proper rotation.", "quantifier": "all dates, times of day, tables and rounding results of sine and cosine within 2^-52", "why_tests_cant": "The error is the sum over 106 terms of series, angle reductions and ten matrix products; a reference in higher precision is needed to see it.", "anchors": ["src/util/Rotations.cpp:computeRJ2k2Ecef", "src/util/Rotations.cpp:computeREcef2J2k", "src/util/Rotations.cpp:computePrecession", "src/util/Rotations.cpp:computeNutation", "src/util/Rotations.cpp:computeGreenwichHourAngle", "src/util/Rotations.cpp:polarRotation"]}
{"id": "C150", "title": "Nutation is the IAU 1980 theory", "statement": "For every date nutationAngles returns the nutation of the IAU 1980 theory: the sums over its 106 published terms with the published arguments in degrees, minutes and seconds. The nutation matrix moves ecliptic coordinates by these amounts and the hour angle contains the equation of the equinoxes they give. In double arithmetic the angles are within 7e-14 rad of the theory for 200 years around 2000.", "quantifier": "all dates; for the last part all arithmetics with the error bounds of doubles", "why_tests_cant": "A wrong sign or multiple in one of the small rows changes the angles by less than any tolerance used in a test.", "anchors": ["src/util/Rotations.cpp:nutationAngles", "src/util/Rotations.cpp:computeNutation", "src/util/Rotations.cpp:computeGreenwichHourAngle"]}
{"id": "C151", "title": "Rounding error of linear least squares", "statement": "In double arithmetic the linear least-squares functions return a state close to the best one. With the columns independent by a margin l (smallest eigenvalue of the normal matrix after scaling its diagonal to one), a solver of backward error s, n states and N the larger of the two sizes, the predicted measurements H x are off by at most 4 (n/l) (2 s + 6 (N+1) 2^-53) times the length of the measurements, every state by this over sqrt(l) times the length of its column, and the squared residual exceeds the smallest one by at most the square of the same factor. The returned cost is as close. Diagonal weights double the rounding term.", "quantifier": "all measurements, matrices and weights whose squares do not underflow, all sizes up to a million, all orders of summation", "why_tests_cant": "Errors grow with the square of the condition number, which a test with a handful of well-conditioned matrices never meets.", "anchors": ["src/filter/BatchLeastSquares.cpp:UnweightedLinearLeastSquares", "src/filter/BatchLeastSquares.cpp:WeightedLinearLeastSquares", "src/filter/BatchLeastSquares.cpp:ComputeCostFunction"]}
{"id": "C152", "title": "Rounding error of the error dynamics", "statement": "In double arithmetic the two matrices of the local-level error model are close to the exact ones. For latitudes up to 1.5 rad, heights up to 110 km, accelerations up to 1000 m/s2, rates up to 1e-3 rad/s in latitude, 1e-2 rad/s in longitude and 1200 m/s in height, each entry of the dynamics matrix is within 2 units of 2^-53, except those of the vertical velocity row, whose entries reach 1e5 and are within 7e6 units (8e-10). Entries of the input matrix are exact in the attitude and position rows, within 0.01 units in the horizontal and 60 units in the vertical velocity rows. The Earth-fixed error model rounds only the entries of the velocity row.", "quantifier": "all inputs in the stated range, every rounding of every operation, every sine, cosine, tangent and power within two units in the last place", "why_tests_cant": "Reference values in a test come from the same double arithmetic, so an unexpected loss of digits in one of 162 entries goes unnoticed.", "anchors": ["src/inertial/pvaErrorDynamics.cpp:nedErrorDynamics", "src/inertial/pvaErrorDynamics.cpp:ecefErrorDynamics"]}
{"id": "C153", "title": "The solver of the normal equations is backward stable", "statement": "The LDLT solver behind both linear least squares functions, run in arithmetic with relative error 2^-53, meets no zero pivot and returns the exact solution of a system whose entries differ from those given by at most 9 (n + 2) units of 2^-53 times the geometric mean of the two diagonal entries. This holds when the diagonal is positive and the matrix, scaled to ones on its diagonal, has eigenvalues of at least 11 n (n + 2) 2^-53. It does not depend on the order of the pivots. With this solver the error bounds of C151 hold with no assumption on the solver, and the functions always return. Without rounding the solution is exact whatever the signs of the pivots.", "quantifier": "all sizes up to a million, every matrix with the stated margin, every right-hand side, every order of the pivots, every rounding of every operation, every order of summation", "why_tests_cant": "A test solves a few small systems and cannot show that no system within the margin meets a bad pivot.", "anchors": ["src/filter/BatchLeastSquares.cpp:UnweightedLinearLeastSquares", "src/filter/BatchLeastSquares.cpp:WeightedLinearLeastSquares"]}
{"id": "C154", "title": "Rounding errors of the unscented prediction", "statement": "In double arithmetic without underflow each coordinate of the predicted state lies within 1.01 (k + 1) 2^-53 times the sum of the sizes of its k terms of the weighted mean. With non-negative weights of sum one each entry of the predicted covariance lies within 1.01 (k + 4) 2^-53 times the product of the standard deviations plus the process noise, plus the product of the two errors of the state, of the exact one; variances stay non-negative; opposite entries differ by at most twice that, but they can differ. With weights of either sign the bound grows with the sum of their sizes and with the distance of their sum from one.", "quantifier": "for every rounding with relative error 2^-53, all numbers of states, all numbers of sigma points up to 10^6, all weights, points and process noises", "why_tests_cant": "A test sees the rounding of a few filters; that the error of the state enters the covariance in second order only, for all points and weights, is an identity about shifted means.", "anchors": ["src/filter/KalmanFilter.cpp:filterUkfPredict", "src/filter/KalmanFilter.cpp:filterUkfUpdate"]}
{"id": "C155", "title": "The matrix inversion of the filter, and the update with several measurements", "statement": "The inversion that the measurement update calls (elimination with row exchanges, then two triangular solutions per column) meets no zero pivot when every vector keeps a share s of its length well above rounding. The product of the matrix with the result is the identity up to 7 (n + 2) 2^-53 2^n times the largest entry times the sum of the sizes of the column, and the result is within 2 n times that over s squared of the inverse. With it the update of any number of states by any number of measurements succeeds. Its gain is within 2.5 q times the row of |P||H|^T over s of the exact gain, where q is 24 (N + 1) 2^-53 m 2^m Z / s for innovation sizes up to Z; the mean and the covariance follow with this error, the covariance to second order. Measurement noise of variance s in every direction is enough.", "quantifier": "for every rounding with relative error 2^-53, every order of summation, all matrices of up to 10^6 rows with that margin, all states, covariances, measurements, models and noises", "why_tests_cant": "A test inverts a few matrices; that no matrix with the margin makes the elimination fail or lose more than this is a statement about the growth of the pivots.", "anchors": ["src/filter/KalmanFilter.cpp:filterUpdate", "src/filter/KalmanFilter.cpp:filterUkfUpdate"]}
{"id": "C156", "title": "The unscented measurement update in doubles", "statement": "With nonnegative weights of sum one, and measurement noise enough that the measurement covariance keeps a share s of every vector well above rounding, the unscented update with the library's inversion succeeds where the exact one does. Its gain, mean and covariance differ from the exact ones by explicit bounds: the errors of the weighted means and scatters, the error of the inversion and a few units of 2^-53 of the sizes involved. The covariance error is of first order in the error of the gain, unlike that of the plain update. Without such a margin the variance can come out negative in doubles, although the mean and covariance are those of the points and the noise is positive.", "quantifier": "for every rounding with relative error 2^-53, every order of summation, all numbers of states and measurements up to 10^6, all points, weights that form a distribution, noises and measurements with that margin", "why_tests_cant": "A test compares one update with a reference; the loss of positivity needs one particular gain whose rounding goes the wrong way, and the bounds speak about all of them.", "anchors": ["src/filter/KalmanFilter.cpp:filterUkfUpdate"]}
{"id": "C157", "title": "Fine alignment in doubles", "statement": "The azimuth update of the fine alignment filter, computed in doubles with its noise variance and residual, returns covariances within 990 units of 2^-53 of the products of the standard deviations, and states within 320 such units of their size plus their standard deviation over that of the innovation times the sizes of the angles: no matter how uncertain the states are and how precise the measurement is. The prediction is within 36 (state) and 99 (covariance) units of the sums of the sizes of its terms, including the errors of the sines, cosines, tangents and quotients in the transition matrix.", "quantifier": "for every arithmetic with the error model of binary64 including underflow, every order of summation, every covariance that is positive semidefinite, every D, T between 2^-300 and 2^300 that bound the deviations, all angles, times and states", "why_tests_cant": "A test alignment uses a few covariances; badly scaled ones, where one state is known a million times better than another, are where rounding could spoil the small variances, and the bound excludes that for all.", "anchors": ["src/inertial/initialization.cpp:fineAlignmentAzimuthUpdate", "src/inertial/initialization.cpp:fineAlignmentPredict"]}
{"id": "C158", "title": "Velocity update of fine alignment in doubles", "statement": "The velocity update of the fine alignment filter, computed in doubles with its two-by-two inversion by pivoted elimination, returns covariances within 2300 c^2 units of 2^-53 (plus the square of 17500 c^4 units) of the products of the standard deviations, and states within 108 units of their size plus 9000 c^3 units of their standard deviation over that of the measurement times the sizes of the velocities, where c is the standard deviation of an innovation over that of the measurement.", "quantifier": "for every arithmetic with relative error 2^-53 in the inversion and the error model of binary64 in the products, every order of summation, every covariance that is positive semidefinite, all deviations between 2^-300 and 2^300 with 300000 c^3 2^-53 <= 1, all velocities and states", "why_tests_cant": "How the error grows with the precision of the measurement is a statement about all noise levels; a test at a few says nothing about the next decade.", "anchors": ["src/inertial/initialization.cpp:fineAlignmentVelocityUpdate"]}
{"id": "C159", "title": "Nonlinear least squares converges", "statement": "Started within rho of a stationary point around which the linearisation stretches vectors by s at least, has a quadratic error with constant L, and is nearly orthogonal to the remaining residual with constant sg, where k = sg / s^2 + L rho / (2 s) is less than 1, the nonlinear least-squares calls return after at most j + 1 iterations if (1 + k) k^j times the initial error is at most eps. With d = eps / (1 - k), the returned vector is within sg / s^2 d + L / (2 s) d^2 of the stationary point, which is the only one in the ball. Each step takes an error e to sg / s^2 e + L / (2 s) e^2 at most: quadratic convergence where the residual vanishes.", "quantifier": "for all numbers of measurements and states, all positive semidefinite weights, all user models and linearisations with these constants, all start vectors in the ball, all tolerances and iteration counts", "why_tests_cant": "Termination of a loop without an iteration limit and a rate of convergence are statements about all models and starts; a test runs a few.", "anchors": ["src/filter/BatchLeastSquares.cpp:WeightedNonlinearLeastSquares", "src/filter/BatchLeastSquares.cpp:UnweightedNonlinearLeastSquares"]}
{"id": "C160", "title": "Nonlinear least squares in double arithmetic ends near the solution", "statement": "In double arithmetic, where the user's model functions return rounded values, a step of the unweighted nonlinear least-squares call takes an error e of the estimate to k e + t at most, where k collects the curvature of the model and the residual that remains, and t the errors of the model functions, of the products, of the linear solver and of the additions. Started where k rho + t is at most rho, with k less than 1 and a tolerance above 2.02 t / (1 - k) plus a bound that shrinks like k^j, the call returns after at most j + 1 iterations, within (1.01 k eps + t) / (1 - k) of the solution. With Eigen's LDLT algorithm the accuracy of the solver is proved, not assumed. A tolerance below the errors of the model can make the loop run for ever.", "quantifier": "for all numbers of measurements and states up to a million, all correctly rounded summation orders, all user models with these constants, all start vectors in the ball, all tolerances and iteration counts", "why_tests_cant": "Whether rounding errors keep a loop without an iteration limit from ending is a statement about all models and inputs; a test runs a few.", "anchors": ["src/filter/BatchLeastSquares.cpp:UnweightedNonlinearLeastSquares"]}
{"id": "C161", "title": "Weighted nonlinear least squares in double arithmetic ends near the solution", "statement": "The statements of C160 hold for the weighted call, with the lengths of measurements and of residuals taken in the weights: a step takes an error e to k e + t at most, and from a start close enough the call returns after a number of iterations that depends on k and the tolerance, within (1.01 k eps + t) / (1 - k) of the weighted solution. With weights on the diagonal, the sizes of the terms that are added up need no assumption beyond the absence of underflow; with other weights the cancellation among them enters by a factor q.", "quantifier": "for all numbers of measurements and states up to a million, all positive semidefinite weights, all correctly rounded summation orders, all user models with these constants, all start vectors in the ball, all tolerances and iteration counts", "why_tests_cant": "Whether rounding errors keep a loop without an iteration limit from ending is a statement about all models, weights and inputs; a test runs a few.", "anchors": ["src/filter/BatchLeastSquares.cpp:WeightedNonlinearLeastSquares"]}
{"id": "C162", "title": "What nonlinear least squares returns in double arithmetic is nearly stationary", "statement": "Whenever a nonlinear least-squares call returns in double arithmetic, without assumptions on how the iterations went: the returned H is the linearisation at the estimate xp before the last step, both returned states are the same, they differ from xp by at most 1.01 eps, the returned cost is that of the linearised residual y - H x but for rounding, and the gradient of the cost at xp is small: its i-th component is at most the length of the i-th column of H times twice the size of H times (1.01 eps plus the rounding of the state), plus rounding errors proportional to the residual. With weights the same holds in the norm of the weights.", "quantifier": "for all numbers of measurements and states up to a million, all user models, all start vectors, tolerances and iteration counts for which the call returns, all positive semidefinite weights, all correctly rounded summation orders and pivot orders", "why_tests_cant": "A test can check a few runs against a known answer; it cannot exclude a run that stops far from any stationary point.", "anchors": ["src/filter/BatchLeastSquares.cpp:UnweightedNonlinearLeastSquares", "src/filter/BatchLeastSquares.cpp:WeightedNonlinearLeastSquares", "src/filter/BatchLeastSquares.cpp:ComputeCostFunction"]}
{"id": "C163", "title": "Position conversions on shared variables", "statement": "ecef2Lla may write its three results over its argument: whatever cells of memory the input occupies, three distinct output cells receive the results of the call on values and nothing else changes. lla2Ecef must not be used that way: lla2Ecef(v[0], v[1], v[2], v) reports success, but computes the second and third coordinate with the first one, in metres, as the latitude, and the error can be the size of the Earth. It is correct whenever the first cell of the output is none of the inputs and the second is neither latitude nor altitude.", "quantifier": "for all memories, all addresses and all values", "why_tests_cant": "A test uses separate variables, or a point at which the overwritten latitude happens to do no harm.", "anchors": ["src/util/Rotations.cpp:ecef2Lla", "src/util/Rotations.cpp:lla2Ecef"]}
{"id": "C164", "title": "The private members of the navigator carry nothing from call to call", "statement": "Whatever a program does with a Strapdown object, calls of initialize and integrate or assignments to the public members, the public members never depend on the private ones. After a call the private members hold the public values from before it. Corrections written to the public members take effect in full, also on an object that holds inf or NaN.", "quantifier": "for all objects, all sequences of calls and assignments, all measurements", "why_tests_cant": "A test drives one sequence of calls; stale copies of the previous state would show only in sequences that mix corrections and calls.", "anchors": ["src/inertial/strapdown.cpp:integrate", "src/inertial/strapdown.cpp:initialize", "src/inertial/strapdown.cpp:updateAttitude"]}
{"id": "C165", "title": "Least squares on shared variables", "statement": "On distinct objects the unweighted least-squares calls write exactly the results of the calls on values. With one vector for measurements and state the linear call returns the optimal state, but as the cost that of the state taken as measurements, so exact data can be reported with any cost. With one vector for the old and the new state the nonlinear call reports success at once and changes nothing but the cost.", "quantifier": "for all stores, all addresses, all sizes, solvers, user models and iteration counts", "why_tests_cant": "Tests use separate variables; that the results depend on them is not visible in the interface.", "anchors": ["src/filter/BatchLeastSquares.cpp:UnweightedLinearLeastSquares", "src/filter/BatchLeastSquares.cpp:UnweightedNonlinearLeastSquares", "src/filter/BatchLeastSquares.cpp:ComputeCostFunction"]}
{"id": "C166", "title": "No operation overflows in the ranges of the float theorems", "statement": "In binary64 no operation of the following computations overflows, so their results do not depend on infinities: a run of attitude updates as long as C103 allows, from a rotation or from Euler angles; the matrix of a quaternion with elements up to 2^300 of which one is at least 2^-200; positions at altitudes up to 2^1000 m; gravity at heights up to 2^400 m; filter predictions with up to 2^20 states and entries up to 2^290; compensation of a measurement with all numbers up to 2^200; unscented predictions with up to 2^20 sigma points, weights and points up to 2^100 and process noise up to 2^500; one evaluation of the navigation equations with all numbers up to 2^200, heights above -2^22 m and the cosine of the latitude and the time step at least 2^-200; a Runge-Kutta step at latitudes up to 1.48 rad, heights up to 2^19 m and velocities up to 2^12 m/s with steps of at most 1 s and accelerations up to 2^7 m/s^2; runs of integrate as long as C135 allows while the computed position stays in the range of C135; latitude, longitude and altitude of any point with coordinates up to 2^400 m; quaternions of rotation vectors longer than 2^-480 with elements up to 2^400; coarse alignment with measurements up to 2^150 where the cosine of the latitude is at least 2^-100; quaternions of any matrix with elements up to 2^100; rotation vectors of quaternions with a vector part up to 2^300; Euler angles of any matrix with elements up to 2^900; the rotations between the Earth-fixed and local frames for any latitude and longitude; gravity of a point mass at coordinates up to 2^300 m of which one is at least 2^-200 m; filter updates with up to 2^20 states and measurements and entries up to 2^60, the inverse of the innovation covariance included, where for one measurement a variance of at least 2^-60 is enough; unscented updates with up to 2^20 measurements and sigma points and entries up to 2^40, the inverse included; the prediction of fine alignment where the tangent of the latitude is at most 2^100, and its azimuth update; the matrices of the error dynamics in the Earth-fixed frame with numbers up to 2^400, and in the local frame with numbers up to 2^100, heights above -2^22 m and the cosine of the latitude at least 2^-100; linear least squares with up to 2^20 rows and columns, entries up to 2^200 and a solution up to 2^200, where the solver is a parameter, and for one unknown with the division included, entries up to 2^40 and one row of at least 2^-20, or with weights a normal matrix of at least 2^-40. Larger inputs do overflow: the quaternion (2^512, 0, 0, 0) and a covariance and transition of 2^342.", "quantifier": "for all roundings that agree with binary64 below 2^1024 and are arbitrary beyond, all inputs in the ranges given", "why_tests_cant": "A test shows that the final result is finite for some inputs; an intermediate overflow that cancels out or depends on rare inputs goes unnoticed.", "anchors": ["src/inertial/strapdown.cpp:updateAttitude", "src/util/Attitude.cpp:euler2Dcm", "src/util/Attitude.cpp:computeDcmFromQuaternion", "src/util/Rotations.cpp:lla2Ecef", "src/util/Gravity.cpp:gravityNed", "src/filter/KalmanFilter.cpp:filterPredict", "src/filter/KalmanFilter.cpp:filterUkfPredict", "src/inertial/compensator.cpp:compensateMeasurement", "src/util/NavUtils.cpp:strapdownDynamics", "src/util/NavUtils.cpp:strapdownRk4", "src/inertial/strapdown.cpp:integrate", "src/util/Rotations.cpp:ecef2Lla", "src/util/Attitude.cpp:computeQuaternionFromRotationVec", "src/inertial/initialization.cpp:coarseAttitudeAlignment", "src/util/Attitude.cpp:computeQuaternionFromDcm", "src/util/Attitude.cpp:computeRotationVecFromQuaternion", "src/util/Attitude.cpp:dcm2Euler", "src/util/Rotations.cpp:computeREcef2Ned", "src/util/Rotations.cpp:computeRNed2Ecef", "src/util/Gravity.cpp:simpleGravity", "src/filter/KalmanFilter.cpp:filterUpdate", "src/filter/KalmanFilter.cpp:filterUkfUpdate", "src/inertial/initialization.cpp:fineAlignmentPredict", "src/inertial/initialization.cpp:fineAlignmentAzimuthUpdate", "src/inertial/pvaErrorDynamics.cpp:ecefErrorDynamics", "src/inertial/pvaErrorDynamics.cpp:nedErrorDynamics", "src/filter/BatchLeastSquares.cpp:UnweightedLinearLeastSquares", "src/filter/BatchLeastSquares.cpp:WeightedLinearLeastSquares"]}
{"id": "C167", "title": "NaN and infinities in nonlinear least squares", "statement": "If the nonlinear least-squares calls report success on IEEE doubles, then either no iteration was made, or the state has an entry that is infinite or NaN, or all entries are finite and the last correction, from a finite state, has a norm of at most eps. The middle case is real: an iteration that starts from a state that is not finite, or whose correction contains a NaN, always ends the loop and is reported as success. With NaN as tolerance the calls report success at once without estimating anything. A NaN in the state shows as NaN in the cost.", "quantifier": "for all doubles, sizes, numbers of iterations, solvers and user models", "why_tests_cant": "Tests converge; the loop condition is false for NaN, so divergence looks like convergence.", "anchors": ["src/filter/BatchLeastSquares.cpp:UnweightedNonlinearLeastSquares", "src/filter/BatchLeastSquares.cpp:WeightedNonlinearLeastSquares", "src/filter/BatchLeastSquares.cpp:ComputeCostFunction"]}
