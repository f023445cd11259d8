from setp import setp
setp(id="C92", title="Starting the program: thread argument and exit status",
 statement="The first argument is read like C's atoi: white space, a sign and digits at its front, of a number in the range of int, set the limit on threads, modulo 2^32 if negative; the rest of it and all later arguments are ignored. Without an argument there is no limit. Findings: -1 means no limit too, and an argument without a number at its front is not rejected but asks for 0 threads. The program then makes its calls in a fixed order (library start, construction, parameters, mesh, first refinement, update, then a set-up and a solve for each cycle with an adaptive refinement and an update between them, errors, output, timers) until one throws. Exit status 0, with an empty error stream, means that all of them returned, so the results have been written, after the last solve; exit status 1 means that one threw, that its message is on the error stream and that no call behind it was made, so results are on disk only if it was the timers or the writing itself that failed. With at most 2^32-2 cycles one of the two happens.",
 quantifier="all argument vectors, all parameter values, all behaviours of the calls (return or throw, any effect)",
 why_tests_cant="every position at which a call can fail, for every number of cycles, and every argument text",
 anchors=["source/main.cc: main","source/driver.cc: Driver::run"])
